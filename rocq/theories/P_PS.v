(** Properties C50, C51: power series.  Vocabulary: PSSpec.v ([within t us ws]: the monomial with exponents ws over the symbols us is kept by the truncation t;
    [joint]: the truncation of the result of a binary operation; [clash]: two different truncations; [respects]: every term is within the
    truncation of the power series), SeriesSpec.v ([coef]), PolySpec.v ([prod_coef], [degree_of]). *)
From Coq Require Import ZArith List Bool String Arith Sorted Permutation Lia Ring Ring_theory.
From Verif Require Import Base KpackModel KpackSpec KpackProofs P_Kpack IntModel IntSpec IntProofs P_Int SymModel SymSpec SymProofs P_Sym PMonModel PMonSpec PMonProofs PMonProofs2 P_PMon
  DPMModel DPMSpec DPMProofs DPMProofs2 DPMProofs3 P_DPM KeyOps KeyInst
  SeriesModel SeriesModel2 SeriesSpec SeriesProofs SeriesProofs2 SeriesProofs3 SeriesProofs4 SeriesProofs5 SeriesProofs6 Lin EvalSpec SeriesEval SeriesProofs7 CfInst P_Series P_Series2
  PolyModel PolyModel2 PolySpec PolyProofs7 PolyProofs8 PolyProofs9 P_Poly P_Poly2 PSModel PSSpec PSProofs.
Import ListNotations.
Open Scope Z_scope.
Open Scope res_scope.
Local Notation len := List.length.

Section PS.
Context {K C : Type} (KO : key_ops K) (KS : key_sem K) (CO : cf_ops C) (PO : tbl_policy (K * C)) (tD : ity).
Context (KL : key_laws KO KS) (CL : cf_laws CO) (HT : integral_type tD) (DI : degrees_in KS tD).
Notation series := (series K C trunc_t).
Notation WF := (wf KO KS CO).
Notation TO := ps_tag_ops.
Notation coef := (coef KS CO).
Notation exps s k := (ks_exps KS (List.length (s_ss s)) k).
Notation "0c" := (c_zero CO).
Infix "+c" := (c_add CO) (at level 50, left associativity).
Infix "-c" := (c_sub CO) (at level 50, left associativity).
Infix "*c" := (c_mul CO) (at level 40, left associativity).
Add Ring CringPPS : (cl_ring _ CL).

(** C51. truncate keeps exactly the terms within the truncation; it is idempotent; it fails only if a degree overflows. *)
Theorem ps_truncate_exact : forall x : series, WF x -> trunc_ok tD (s_tag x) ->
  (exists r, ps_truncate KO tD x = Ok r /\ WF r /\ s_ss r = s_ss x /\ s_tag r = s_tag x /\ s_log2 r = s_log2 x /\ respects KS r /\
     (forall k c, In (k, c) (terms r) <-> In (k, c) (terms x) /\ within (s_tag x) (s_ss x) (exps x k) = true) /\
     ps_truncate KO tD r = Ok r) \/
  (ps_truncate KO tD x = Throw overflow_error /\ degree_lost KS (s_tag x) x).
Proof.
  intros x W TK. destruct (truncate_ok KO KS CO tD KL HT DI (s_tag x) x W TK eq_refl) as [(r & ER & WR & SR & TR & LR & FT & ID)|H]; [left|right; exact H].
  exists r. split; [exact ER|]. split; [exact WR|]. split; [exact SR|]. split; [exact TR|]. split; [exact LR|]. split; [exact (kept_respects KS _ x r SR TR FT)|]. split; [|exact ID].
  intros k c. rewrite FT, filter_In. reflexivity.
Qed.

(** The limit given by the user, of the integral type tV, as a value of the degree type. *)
Definition limit_value (tV : ity) (d : Z) : Prop := integral_type tV /\ has_value tV d.
Lemma cast_ok tV d : limit_value tV d -> (has_value tD d /\ safe_cast_int tD tV d = Ok d) \/ (~ has_value tD d /\ safe_cast_int tD tV d = Throw safe_cast_failure).
Proof.
  intros [IV HV]. destruct (safe_cast_int_exact tD tV d HT IV HV) as [A B]. assert (DEC : has_value tD d \/ ~ has_value tD d) by (unfold has_value; destruct (sgnd tD); lia). tauto.
Qed.

(** C51. set_truncation keeps exactly the terms within the limit and records the limit; a limit that is not a value of the degree type
    is rejected and leaves the power series untouched; if a degree overflows the power series is left empty. *)
Theorem set_truncation_exact : forall tV d (x : series), WF x -> limit_value tV d ->
  let '(out, r) := set_truncation KO tD tV d x in
  (out = Ok tt /\ WF r /\ s_ss r = s_ss x /\ s_log2 r = s_log2 x /\ get_truncation r = total_truncation d /\ respects KS r /\
     (forall k c, In (k, c) (terms r) <-> In (k, c) (terms x) /\ degree_of all_symbols (s_ss x) (exps x k) <= d)) \/
  (out = Throw safe_cast_failure /\ ~ has_value tD d /\ r = x) \/
  (out = Throw overflow_error /\ WF r /\ terms r = [] /\ degree_lost KS (total_truncation d) x).
Proof.
  intros tV d x W LV. unfold set_truncation. destruct (cast_ok tV d LV) as [[HV ->]|[HV ->]]; [|right; left; auto].
  pose proof (truncate_ok KO KS CO tD KL HT DI (total_truncation d) (set_tag x (total_truncation d)) (set_tag_wf KO KS CO x _ W) HV eq_refl) as H. unfold ps_truncate at 1 3 in H. cbn [s_tag set_tag] in H.
  assert (EQ : truncate_degree KO tD tD d (set_tag x (total_truncation d)) = (r <- truncate_degree KO tD tD d x ;; Ok (set_tag r (total_truncation d)))).
  { unfold truncate_degree, series_filter_res. cbn [s_ss s_tables set_tag]. destruct (rmap _ (s_tables x)); reflexivity. }
  rewrite EQ in H. destruct (truncate_degree KO tD tD d x) as [s|e|]; cbn [bind] in H.
  - destruct H as [(r & ER & WR & SR & TR & LR & FT & _)|[ER _]]; [|discriminate]. left. assert (r = set_tag s (total_truncation d)) by congruence. subst r. clear ER. split; [reflexivity|]. split; [exact WR|]. split; [exact SR|]. split; [exact LR|]. split; [reflexivity|].
    split; [exact (kept_respects KS _ (set_tag x (total_truncation d)) _ SR TR FT)|]. intros k c. rewrite FT, filter_In. cbn [within fst s_ss set_tag]. rewrite Z.leb_le. reflexivity.
  - destruct H as [(r & ER & _)|[ER D]]; [discriminate|]. injection ER as ->. right. right. split; [reflexivity|]. destruct (clear_ok KO KS CO x [] no_truncation W ltac:(constructor)) as [W0 T0]. split; [exact W0|]. split; [exact T0|exact D].
  - destruct H as [(r & ER & _)|[ER D]]; discriminate.
Qed.
Theorem set_truncation_p_exact : forall tV d syms (x : series), WF x -> limit_value tV d -> sorted_set syms ->
  let '(out, r) := set_truncation_p KO tD tV d syms x in
  (out = Ok tt /\ WF r /\ s_ss r = s_ss x /\ s_log2 r = s_log2 x /\ get_truncation r = partial_truncation d syms /\ respects KS r /\
     (forall k c, In (k, c) (terms r) <-> In (k, c) (terms x) /\ degree_of (one_of syms) (s_ss x) (exps x k) <= d)) \/
  (out = Throw safe_cast_failure /\ ~ has_value tD d /\ r = x) \/
  (out = Throw overflow_error /\ WF r /\ terms r = [] /\ degree_lost KS (partial_truncation d syms) x).
Proof.
  intros tV d syms x W LV SS. unfold set_truncation_p. destruct (cast_ok tV d LV) as [[HV ->]|[HV ->]]; [|right; left; auto].
  pose proof (truncate_ok KO KS CO tD KL HT DI (partial_truncation d syms) (set_tag x (partial_truncation d syms)) (set_tag_wf KO KS CO x _ W) (conj HV SS) eq_refl) as H. unfold ps_truncate at 1 3 in H. cbn [s_tag set_tag] in H.
  assert (EQ : truncate_p_degree KO tD tD d syms (set_tag x (partial_truncation d syms)) = (r <- truncate_p_degree KO tD tD d syms x ;; Ok (set_tag r (partial_truncation d syms)))).
  { unfold truncate_p_degree, series_filter_res. cbn [s_ss s_tables set_tag]. destruct (rmap _ (s_tables x)); reflexivity. }
  rewrite EQ in H. destruct (truncate_p_degree KO tD tD d syms x) as [s|e|]; cbn [bind] in H.
  - destruct H as [(r & ER & WR & SR & TR & LR & FT & _)|[ER _]]; [|discriminate]. left. assert (r = set_tag s (partial_truncation d syms)) by congruence. subst r. clear ER. split; [reflexivity|]. split; [exact WR|]. split; [exact SR|]. split; [exact LR|]. split; [reflexivity|].
    split; [exact (kept_respects KS _ (set_tag x (partial_truncation d syms)) _ SR TR FT)|]. intros k c. rewrite FT, filter_In. cbn [within fst s_ss set_tag]. rewrite Z.leb_le. reflexivity.
  - destruct H as [(r & ER & _)|[ER D]]; [discriminate|]. injection ER as ->. right. right. split; [reflexivity|]. destruct (clear_ok KO KS CO x [] no_truncation W ltac:(constructor)) as [W0 T0]. split; [exact W0|]. split; [exact T0|exact D].
  - destruct H as [(r & ER & _)|[ER D]]; discriminate.
Qed.
(** C51. unset_truncation keeps the terms. *)
Theorem unset_truncation_exact : forall x : series, WF x ->
  let r := unset_truncation x in WF r /\ s_ss r = s_ss x /\ s_log2 r = s_log2 x /\ terms r = terms x /\ get_truncation r = no_truncation /\ ps_truncate KO tD r = Ok r.
Proof. intros x W r. split; [apply set_tag_wf; exact W|]. repeat split. Qed.

(** C50. Sums and differences, binary or in place. *)
Theorem ps_add_sub_exact : forall sign (in_place aliased : bool) (x y : series), WF x -> WF y -> trunc_ok tD (s_tag x) -> trunc_ok tD (s_tag y) ->
  (aliased = true -> y = x) -> Z.of_nat (len (s_ss x) + len (s_ss y)) <= imax size_t ->
  let out := if in_place then ps_in_place_addsub KO CO PO tD sign x aliased y else if sign then ps_add KO CO PO tD x y else ps_sub KO CO PO tD x y in
  (clash (s_tag x) (s_tag y) -> out = Throw invalid_argument) /\
  (forall t, joint (s_tag x) (s_tag y) t ->
    (exists r, out = Ok r /\ WF r /\ s_tag r = t /\ union_of (s_ss x) (s_ss y) (s_ss r) /\
       (respects KS x -> respects KS y -> respects KS r /\ forall us ws, covers us r ->
          coef us r ws = if within t us ws then (if sign : bool then coef us x ws +c coef us y ws else coef us x ws -c coef us y ws) else 0c)) \/
    (key_overflow out /\
     ((exists u, union_of (s_ss x) (s_ss y) u /\ (unrep KS u x \/ unrep KS u y)) \/
      full (s_log2 x) (series_size x + series_size y) \/ full (s_log2 y) (series_size x + series_size y) \/
      exists s, WF s /\ union_of (s_ss x) (s_ss y) (s_ss s) /\ degree_lost KS t s /\ (forall us ws, coef us s ws = if sign : bool then coef us x ws +c coef us y ws else coef us x ws -c coef us y ws)))).
Proof.
  intros sign ip al x y Wx Wy TX TY AL B out.
  set (op := fun a b : series => if ip then series_in_place_addsub KO CO PO CO PO TO sign (fun c => c) a al b else if sign then series_add KO CO PO TO a b else series_sub KO CO PO TO a b).
  assert (EO : out = ps_addsub_visit KO tD op x y) by (unfold out, op; destruct ip; [reflexivity|]; destruct sign; reflexivity). clearbody out. subst out.
  assert (OP : (exists r, op x y = Ok r /\ WF r /\ union_of (s_ss x) (s_ss y) (s_ss r) /\ forall us ws, coef us r ws = if sign : bool then coef us x ws +c coef us y ws else coef us x ws -c coef us y ws) \/
    (key_overflow (op x y) /\ ((exists u, union_of (s_ss x) (s_ss y) u /\ (unrep KS u x \/ unrep KS u y)) \/ full (s_log2 x) (series_size x + series_size y) \/ full (s_log2 y) (series_size x + series_size y)))).
  { unfold op. destruct ip.
    - destruct (in_place_exact KO KS CO PO TO KL CL sign x al y Wx Wy AL B) as [(r & A1 & A2 & A3 & _ & A5 & _)|H]; [left; exists r; tauto|right; exact H].
    - destruct (add_sub_exact KO KS CO PO TO KL CL sign x y Wx Wy B) as [(r & A1 & A2 & A3 & _ & _ & A6)|H]; [left; exists r; tauto|right; exact H]. }
  clearbody op. assert (WO : forall s, op x y = Ok s -> WF s).
  { intros s ES. destruct OP as [(r & A & W & _)|[[A|A] _]]; rewrite A in ES; try discriminate. injection ES as <-. exact W. }
  destruct (visit_ok KO KS CO tD KL HT DI op x y TX TY WO) as [VC VJ]. split; [exact VC|]. intros t J. specialize (VJ t J).
  destruct OP as [(s & ES & Ws & U & D)|[KO' H]].
  - rewrite ES in VJ. assert (RC : forall us ws, covers us s -> respects KS x -> respects KS y -> s_tag x = s_tag y -> (if sign then coef us x ws +c coef us y ws else coef us x ws -c coef us y ws) = if within t us ws then (if sign then coef us x ws +c coef us y ws else coef us x ws -c coef us y ws) else 0c).
    { intros us ws [SU IU] RX RY ET. assert (CX : covers us x) by (split; [exact SU|intros z Hz; apply IU, U; auto]). assert (CY : covers us y) by (split; [exact SU|intros z Hz; apply IU, U; auto]).
      assert (t = s_tag x) by (destruct J as [[_ ->]|[[_ ->]|[_ ->]]]; auto). rewrite (respects_coef KO KS CO KL CL x us ws Wx CX RX), (respects_coef KO KS CO KL CL y us ws Wy CY RY). rewrite <- ET, <- H. destruct (within t us ws); [reflexivity|]. destruct sign; ring. }
    destruct VJ as [[ET EV]|[(r & EV & WR & SR & TR & LR & FT)|[EV DL]]].
    + left. exists (set_tag s t). split; [exact EV|]. split; [apply set_tag_wf; exact Ws|]. split; [reflexivity|]. split; [exact U|]. intros RX RY.
      assert (CF : forall us ws, covers us s -> coef us (set_tag s t) ws = if within t us ws then (if sign then coef us x ws +c coef us y ws else coef us x ws -c coef us y ws) else 0c).
      { intros us ws CV. rewrite coef_tag, D. apply RC; auto. }
      split; [|exact CF]. intros k c I. cbn [s_tag set_tag s_ss] in *. change (terms (set_tag s t)) with (terms s) in I. destruct (within t (s_ss s) (exps s k)) eqn:EW; [reflexivity|]. exfalso.
      assert (CS : covers (s_ss s) s) by (split; [apply (wf_ss _ _ _ _ Ws)|apply incl_refl]). apply (wf_nonzero _ _ _ _ Ws k c I). rewrite <- (coef_term KO KS CO KL CL (s_ss s) s k c Ws CS I). rewrite <- (coef_tag KS CO _ s t), CF by exact CS.
      rewrite spread_self by (try (apply sorted_set_nodup, (wf_ss _ _ _ _ Ws)); apply (kl_len _ _ KL); eapply wf_valid; eauto). rewrite EW. reflexivity.
    + left. exists r. split; [exact EV|]. split; [exact WR|]. split; [exact TR|]. split; [rewrite SR; exact U|]. intros _ _. split; [exact (kept_respects KS t s r SR TR FT)|].
      intros us ws CV. assert (CS : covers us s) by (destruct CV as [C1 C2]; split; [exact C1|rewrite <- SR; exact C2]). rewrite (kept_coef KO KS CO KL CL t us s r ws CS Ws SR FT), D. reflexivity.
    + right. split; [left; exact EV|]. right. right. right. exists s. tauto.
  - right. split; [|tauto]. destruct KO' as [X|X]; rewrite X in VJ; [left|right]; exact VJ.
Qed.

(** C50. Sums and differences with a scalar: the constant is added, then the result truncated. *)
Theorem ps_scalar_exact : forall sign scalar_first (x : series) c, WF x -> trunc_ok tD (s_tag x) -> ks_fits KS (repeat 0 (len (s_ss x))) ->
  let out := if scalar_first : bool then scalar_addsub_ps KO CO PO tD sign c x else ps_addsub_scalar KO CO PO tD sign x c in
  (exists r, out = Ok r /\ WF r /\ s_ss r = s_ss x /\ s_tag r = s_tag x /\ respects KS r /\
     forall ws, coef (s_ss x) r ws =
       let cst := if vec_eqb ws (repeat 0 (len (s_ss x))) then c else 0c in
       if within (s_tag x) (s_ss x) ws
       then if scalar_first then (if sign then cst +c coef (s_ss x) x ws else cst -c coef (s_ss x) x ws)
            else (if sign then coef (s_ss x) x ws +c cst else coef (s_ss x) x ws -c cst)
       else 0c) \/
  (out = Throw overflow_error /\ (full (s_log2 x) (series_size x) \/ exists s, WF s /\ s_ss s = s_ss x /\ degree_lost KS (s_tag x) s)).
Proof.
  intros sign sf x c W TK F out. unfold out, scalar_addsub_ps, ps_addsub_scalar. clear out.
  destruct (scalar_addsub_exact KO KS CO PO KL CL sign x c W F _ sf eq_refl) as [(s & ES & Ws & SS & ST & _ & D)|[ES FU]].
  - assert (CX : covers (s_ss x) s) by (split; [apply (wf_ss _ _ _ _ W)|rewrite SS; apply incl_refl]).
    assert (EB : (if sf then ret <- scalar_addsub_series KO CO PO sign c x;; ps_truncate KO tD ret else ret <- series_addsub_scalar KO CO PO sign x c;; ps_truncate KO tD ret) = ps_truncate KO tD s) by (destruct sf; rewrite ES; reflexivity). rewrite EB.
    destruct (truncate_ok KO KS CO tD KL HT DI (s_tag x) s Ws TK ST) as [(r & ER & WR & SR & TR & LR & FT & _)|[ER DL]].
    + left. exists r. split; [exact ER|]. split; [exact WR|]. split; [congruence|]. split; [exact TR|]. split; [exact (kept_respects KS _ s r SR TR FT)|]. intros ws. rewrite (kept_coef KO KS CO KL CL _ _ s r ws CX Ws SR FT), D. reflexivity.
    + right. split; [exact ER|]. right. exists s. auto.
  - right. assert (EB : (if sf then ret <- scalar_addsub_series KO CO PO sign c x;; ps_truncate KO tD ret else ret <- series_addsub_scalar KO CO PO sign x c;; ps_truncate KO tD ret) = Throw overflow_error) by (destruct sf; rewrite ES; reflexivity). rewrite EB. auto.
Qed.

(** C50. Products.  [sums_fit] (PolyProofs8.v): the sum of the degrees of two terms whose product passes the overflow check is a value of the
    degree type; see [pm_ps_mul], [dpm_ps_mul]. *)
Context (HP : promote tD = tD).
Theorem ps_mul_exact : forall E (x y : series), env_ok KO KS E -> WF x -> WF y -> trunc_ok tD (s_tag x) -> trunc_ok tD (s_tag y) ->
  Z.of_nat (len (s_ss x) + len (s_ss y)) <= imax size_t ->
  let out := ps_mul KO CO PO E tD x y in
  (clash (s_tag x) (s_tag y) -> out = Throw invalid_argument) /\
  (forall t, joint (s_tag x) (s_tag y) t -> (forall u, union_of (s_ss x) (s_ss y) u -> t <> no_truncation -> sums_fit KS tD (counted t) u) ->
    exists u, union_of (s_ss x) (s_ss y) u /\
    ((exists r, out = Ok r /\ WF r /\ s_ss r = u /\ s_tag r = t /\ ~ unrepresentable KS u x y /\ respects KS r /\
        forall us ws, sorted_set us -> incl u us -> coef us r ws = if within t us ws then prod_coef KS CO us x y ws else 0c) \/
     (key_overflow out /\
      (unrepresentable KS u x y \/ capacity x y \/ (t <> no_truncation /\ (degree_unrep KS (counted t) u x \/ degree_unrep KS (counted t) u y)))))).
Proof.
  intros E x y EO Wx Wy TX TY B out.
  assert (MJ : forall t, joint (s_tag x) (s_tag y) t -> out = mul_limited KO CO PO E tD t x y).
  { intros t J. unfold out, ps_mul. destruct J as [[EQ ->]|[[EQ ->]|[EQ ->]]].
    - rewrite <- EQ. destruct (s_tag x) as [|d|d s]; [reflexivity| |]; rewrite Z.eqb_refl, ?(proj2 (ss_eqb_iff s s) eq_refl); reflexivity.
    - rewrite EQ. destruct (s_tag y); reflexivity.
    - rewrite EQ. destruct (s_tag x); reflexivity. }
  split.
  - intros (A & A' & N). unfold out, ps_mul. destruct (s_tag x) as [|d|d s], (s_tag y) as [|e|e v]; try congruence.
    + destruct (Z.eqb_spec d e); [subst; congruence|reflexivity].
    + destruct (Z.eqb_spec d e); [|reflexivity]. cbn [andb]. destruct (ss_eqb s v) eqn:EU; [apply ss_eqb_iff in EU; subst; congruence|reflexivity].
  - intros t J SF. rewrite (MJ t J). clear MJ out.
    assert (TK : trunc_ok tD t) by (destruct J as [[_ ->]|[[_ ->]|[_ ->]]]; auto).
    assert (RESP : forall u (r : series), WF r -> s_ss r = u -> s_tag r = t -> sorted_set u -> (forall us ws, sorted_set us -> incl u us -> coef us r ws = if within t us ws then prod_coef KS CO us x y ws else 0c) -> respects KS r).
    { intros u r WR SR TR SU DR k c I. rewrite TR. destruct (within t (s_ss r) (exps r k)) eqn:EW; [reflexivity|]. exfalso. subst u.
      assert (CS : covers (s_ss r) r) by (split; [exact SU|apply incl_refl]). apply (wf_nonzero _ _ _ _ WR k c I). rewrite <- (coef_term KO KS CO KL CL (s_ss r) r k c WR CS I). rewrite DR by (auto; apply incl_refl).
      rewrite spread_self by (try (apply sorted_set_nodup; exact SU); apply (kl_len _ _ KL); eapply wf_valid; eauto). rewrite EW. reflexivity. }
    destruct t as [|d|d s]; cbn [mul_limited].
    + destruct (mul_exact KO KS CO PO TO KL CL E x y EO Wx Wy B) as (u & U & H). exists u. split; [exact U|]. unfold poly_mul in H. destruct H as [(r & ER & WR & SR & TR & NU & DR)|[KV H]].
      * left. exists r. split; [exact ER|]. split; [exact WR|]. split; [exact SR|]. split; [exact TR|]. split; [exact NU|]. split; [apply (RESP u); auto; eapply union_sorted; eauto|exact DR].
      * right. split; [exact KV|]. tauto.
    + destruct (truncated_mul_exact KO KS CO PO TO KL CL E all_symbols d (tr_total KO tD tD d) x y EO Wx Wy B) as (u & U & H).
      { intros u U. apply (total_exact KO KS KL); auto; [apply limit_self; auto|]. apply (SF u U). discriminate. }
      exists u. split; [exact U|]. destruct H as [(r & ER & WR & SR & TR & NU & DR)|[KV H]].
      * left. exists (set_tag r (total_truncation d)). rewrite ER. split; [reflexivity|]. assert (W' := set_tag_wf KO KS CO r (total_truncation d) WR). split; [exact W'|]. split; [exact SR|]. split; [reflexivity|]. split; [exact NU|].
        split; [apply (RESP u); auto; eapply union_sorted; eauto|exact DR].
      * right. split; [destruct KV as [->| ->]; [left|right]; reflexivity|]. destruct H as [H|[H|[H|H]]]; auto; right; right; (split; [discriminate|auto]).
    + destruct TK as [TK SS]. destruct (truncated_mul_exact KO KS CO PO TO KL CL E (one_of s) d (tr_partial KO tD tD d s) x y EO Wx Wy B) as (u & U & H).
      { intros u U. apply (partial_exact KO KS KL); auto; [apply limit_self; auto|eapply union_sorted; eauto|]. apply (SF u U). discriminate. }
      exists u. split; [exact U|]. destruct H as [(r & ER & WR & SR & TR & NU & DR)|[KV H]].
      * left. exists (set_tag r (partial_truncation d s)). rewrite ER. split; [reflexivity|]. assert (W' := set_tag_wf KO KS CO r (partial_truncation d s) WR). split; [exact W'|]. split; [exact SR|]. split; [reflexivity|]. split; [exact NU|].
        split; [apply (RESP u); auto; eapply union_sorted; eauto|exact DR].
      * right. split; [destruct KV as [->| ->]; [left|right]; reflexivity|]. destruct H as [H|[H|[H|H]]]; auto; right; right; (split; [discriminate|auto]).
Qed.
End PS.
