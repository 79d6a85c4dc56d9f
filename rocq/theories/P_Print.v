(** Properties C48 and C49: printing.  Vocabulary: PrintSpec.v ([read_text]: a reader of sums of products of numbers and powers of names;
    [powers ss vs]: the symbols with a nonzero exponent, with their exponents; [identifier]; [monomial_text], [monomial_tex]: the texts of products of powers;
    [sum_text]: texts joined by signs; [clean]: a text in which "+-" does not occur and which does not end with "+"). *)
From Coq Require Import ZArith List Bool String Ascii Arith Lia.
From Verif Require Import Base KpackModel KpackSpec KpackProofs P_Kpack IntModel SymModel SymSpec PMonModel PMonSpec PMonProofs DPMModel DPMSpec DPMProofs KeyOps KeyInst
  SeriesModel SeriesSpec SeriesProofs SeriesProofs2 CfInst P_Series2 P_Poly2 PSModel PrintModel PrintSpec PrintProofs PrintProofs2 PrintProofs3.
Import ListNotations.
Open Scope Z_scope.
Open Scope res_scope.
Local Notation len := List.length.

(** * Monomials *)
(** The text of a monomial is the product of its powers, for any symbol names and any monomial type. *)
Theorem monomial_text_exact : forall D ps (ss : symbol_set) p d vs, packable D ->
  (represents D (len ss) p vs -> pm_stream D p ss = Ok (monomial_text (powers ss vs)) /\ pm_tex D p ss = Ok (monomial_tex (powers ss vs))) /\
  (psize_ok D ps -> drepresents D ps (len ss) d vs -> dpm_stream D ps d ss = Ok (monomial_text (powers ss vs)) /\ dpm_tex D ps d ss = Ok (monomial_tex (powers ss vs))).
Proof.
  intros D ps ss p d vs HD. split; [intros R|intros G R]; split; [apply pm_text_ok|apply pm_tex_ok|apply dpm_text_ok|apply dpm_tex_ok]; auto.
Qed.
Lemma powers_ident ss vs : Forall identifier ss -> ident_powers (powers ss vs).
Proof.
  intros F. revert vs. induction F as [|x ss I F IH]; intros vs; [constructor|]. destruct vs as [|v vs]; [constructor|]. cbn [powers].
  destruct (v =? 0); [apply IH|constructor; [exact I|apply IH]].
Qed.
(** Reading it gives these powers back. *)
Theorem monomial_text_reads_back : forall (ss : symbol_set) vs, Forall identifier ss -> read_text (monomial_text (powers ss vs)) = Some [(1, powers ss vs)].
Proof.
  intros ss vs F. pose proof (powers_ident ss vs F) as P. destruct (powers ss vs) as [|p l] eqn:E; [reflexivity|].
  pose proof (read_printed [(1, p :: l)] ltac:(discriminate) ltac:(constructor; [exact P|constructor])) as R. cbn [map sum_text more_terms] in R. rewrite app_s_nil in R.
  unfold rterm_text in R. cbn [fst snd] in R. change (decimal 1) with "1"%string in R. unfold product_text in R. inversion P; subst. rewrite (letter_not_one _ (mono_letter p l H1)) in R. exact R.
Qed.

(** * Series *)
(** The terms to be read in the text of a series with integer coefficients. *)
Definition shown_terms {K Tag} (KS : key_sem K) (x : series K Z Tag) : list rterm :=
  map (fun kc => (snd kc, powers (s_ss x) (ks_exps KS (len (s_ss x)) (fst kc)))) (terms x).
(** The texts of the keys are those of their powers. *)
Definition key_prints {K} (KS : key_sem K) (kt : K -> symbol_set -> res string) : Prop :=
  forall k ss, ks_valid KS (len ss) k -> kt k ss = Ok (monomial_text (powers ss (ks_exps KS (len ss) k))).
Lemma pm_prints D : packable D -> key_prints (pm_sem D) (pm_stream D).
Proof. intros HD k ss V. apply pm_text_ok; auto. apply pm_valid_rep; auto. Qed.
Lemma dpm_prints D ps : packable D -> psize_ok D ps -> key_prints (dpm_sem D ps) (dpm_stream D ps).
Proof. intros HD G k ss V. apply dpm_text_ok; auto. apply dpm_valid_rep; auto. Qed.

Section Text.
Context {K Tag : Type} (KO : key_ops K) (KS : key_sem K) (kt : K -> symbol_set -> res string) (KP : key_prints KS kt).
Notation series := (series K Z Tag).

Lemma decimal_no_paren c t : ~ in_parens (decimal c) t.
Proof.
  intros P. pose proof (proj1 (paren_shape _ _ P)) as F. destruct (Z_lt_le_dec c 0) as [N|N].
  - rewrite decimal_neg in F by auto. discriminate F.
  - pose proof (lex_decimal c ""%string N Logic.I) as L. rewrite app_s_nil in L. destruct (decimal c) as [|d s]; [discriminate|].
    cbn in F. apply Ascii.eqb_eq in F. subst d. discriminate L.
Qed.

Lemma series_term_is (x : series) : wf KO KS Z_cf x ->
  Forall2 (term_is (fun c => Ok (z_string c)) kt false (s_ss x)) (terms x) (map rterm_text (shown_terms KS x)).
Proof.
  intros W. pose proof (wf_valid _ _ _ _ W) as V. unfold shown_terms. clear W. induction (terms x) as [|[k c] l IH]; [constructor|]. cbn [map]. constructor.
  - exists (z_string c), (monomial_text (powers (s_ss x) (ks_exps KS (len (s_ss x)) k))). split; [reflexivity|]. split; [apply KP; apply (V k c); left; reflexivity|].
    symmetry. apply single_plain. right. apply decimal_no_paren.
  - apply IH. intros k' c' I. apply (V k' c'). right. exact I.
Qed.
Lemma shown_ident (x : series) : Forall identifier (s_ss x) -> ident_terms (shown_terms KS x).
Proof. intros F. apply Forall_forall. intros t I. apply in_map_iff in I as (kc & <- & _). cbn [snd]. apply powers_ident. exact F. Qed.
Lemma ident_clean l : ident_terms l -> Forall clean (map rterm_text l).
Proof.
  intros F. apply Forall_forall. intros t I. apply in_map_iff in I as (r & <- & J). apply nop_clean. unfold rterm_text. apply nop_product; [apply nop_decimal|].
  apply nop_mono. unfold ident_terms in F. rewrite Forall_forall in F. specialize (F r J). eapply Forall_impl; [|exact F]. intros p. apply nop_ident.
Qed.

Lemma sum_dots l : l <> [] -> sum_text (l ++ ["..."]%string) = (sum_text l ++ "+...")%string.
Proof.
  destruct l as [|t l]; [congruence|]. intros _. cbn [app sum_text]. rewrite app_s_assoc. f_equal. induction l as [|u l IH]; [reflexivity|]. cbn [app more_terms].
  rewrite IH. destruct (begins_minus u); rewrite !app_s_assoc; reflexivity.
Qed.
Lemma printed_ok (x : series) : wf KO KS Z_cf x -> Forall identifier (s_ss x) ->
  exists t, stream_terms (fun c => Ok (z_string c)) kt false x = Ok (t ++ if (50 <? len (terms x))%nat then "+..." else "")%string /\
    read_text t = Some (match terms x with [] => [(0, [])] | _ => firstn 50 (shown_terms KS x) end).
Proof.
  intros W F. destruct (terms x) as [|kc l] eqn:ET.
  - exists "0"%string. split; [|reflexivity]. unfold stream_terms. replace (series_empty x) with true by (symmetry; apply empty_terms; exact ET). reflexivity.
  - assert (NE : terms x <> []) by (rewrite ET; discriminate). rewrite <- ET. assert (SE : series_empty x = false).
    { destruct (series_empty x) eqn:E; [|reflexivity]. apply empty_terms in E. congruence. }
    pose proof (shown_ident x F) as SI. assert (NF : firstn 50 (shown_terms KS x) <> []) by (unfold shown_terms; rewrite ET; discriminate).
    assert (FI : ident_terms (firstn 50 (shown_terms KS x))).
    { unfold ident_terms in *. rewrite Forall_forall in *. intros u U. apply SI. rewrite <- (firstn_skipn 50 (shown_terms KS x)). apply in_or_app. auto. }
    exists (sum_text (map rterm_text (firstn 50 (shown_terms KS x)))). split; [|apply read_printed; auto].
    rewrite (terms_text _ _ false x _ SE (series_term_is x W) (ident_clean _ SI) NE). unfold print_limit. rewrite firstn_map. f_equal. destruct (50 <? len (terms x))%nat.
    + apply sum_dots. destruct (firstn 50 (shown_terms KS x)); [congruence|discriminate].
    + rewrite app_nil_r, app_s_nil. reflexivity.
Qed.
End Text.

(** C48. The printed terms of a series with integer coefficients (wherever it is stored and in whatever order its terms are visited), read back, are its terms;
    beyond the fiftieth term an ellipsis is printed. *)
Theorem printed_text_reads_back_partial : forall {Tag} D (x : series Z Z Tag), packable D -> wf (pm_ops D) (pm_sem D) Z_cf x -> Forall identifier (s_ss x) ->
  exists t, stream_terms (fun c => Ok (z_string c)) (pm_stream D) false x = Ok (t ++ if (50 <? len (terms x))%nat then "+..." else "")%string /\
    read_text t = Some (match terms x with [] => [(0, [])] | _ => firstn 50 (shown_terms (pm_sem D) x) end).
Proof. intros Tag D x HD W F. eapply printed_ok; eauto. apply pm_prints. exact HD. Qed.
Theorem dpm_printed_text_reads_back_partial : forall {Tag} D ps (x : series dpm Z Tag), packable D -> psize_ok D ps -> wf (dpm_ops D ps) (dpm_sem D ps) Z_cf x -> Forall identifier (s_ss x) ->
  exists t, stream_terms (fun c => Ok (z_string c)) (dpm_stream D ps) false x = Ok (t ++ if (50 <? len (terms x))%nat then "+..." else "")%string /\
    read_text t = Some (match terms x with [] => [(0, [])] | _ => firstn 50 (shown_terms (dpm_sem D ps) x) end).
Proof. intros Tag D ps x HD G W F. eapply printed_ok; eauto. apply dpm_prints; auto. Qed.

(** Printed texts of different series are different: series over the same symbols with at most fifty terms and the same text have the same coefficients. *)
Lemma powers_inj : forall (ss : symbol_set) vs ws, NoDup ss -> len vs = len ss -> len ws = len ss -> powers ss vs = powers ss ws -> vs = ws.
Proof.
  induction ss as [|x ss IH]; intros [|v vs] [|w ws] N L1 L2 E; try discriminate; [reflexivity|]. inversion N; subst. cbn [powers] in E.
  assert (NI : forall us z, In (x, z) (powers ss us) -> False).
  { intros us z I. apply H1. clear -I. revert us I. induction ss as [|y ss IH]; intros [|u us] I; try contradiction. cbn [powers] in I. destruct (u =? 0); [right; eapply IH; eauto|].
    destruct I as [I|I]; [inversion I; subst; left; reflexivity|right; eapply IH; eauto]. }
  destruct (Z.eqb_spec v 0) as [->|NV]; destruct (Z.eqb_spec w 0) as [->|NW].
  - f_equal. apply IH; auto.
  - exfalso. apply (NI vs w). rewrite E. left. reflexivity.
  - exfalso. apply (NI ws v). rewrite <- E. left. reflexivity.
  - inversion E; subst. f_equal. apply IH; auto.
Qed.
Lemma shown_inj {K Tag} (KO : key_ops K) (KS : key_sem K) (x y : series K Z Tag) : key_laws KO KS -> wf KO KS Z_cf x -> wf KO KS Z_cf y -> s_ss x = s_ss y ->
  shown_terms KS x = shown_terms KS y -> terms x = terms y.
Proof.
  intros KL WX WY SS E. pose proof (wf_valid _ _ _ _ WX) as VX. pose proof (wf_valid _ _ _ _ WY) as VY. pose proof (sorted_set_nodup _ (wf_ss _ _ _ _ WX)) as ND.
  unfold shown_terms in E. rewrite <- SS in *. clear WX WY. revert E VX VY. generalize (terms x) (terms y). induction l as [|[k c] l IH]; intros [|[k' c'] l'] E VX VY; try discriminate; [reflexivity|].
  cbn [map fst snd] in E. injection E as Ec Ep El. subst c'. f_equal.
  - f_equal. apply (kl_inj KO KS KL (len (s_ss x))); [eapply VX; left; reflexivity|eapply VY; left; reflexivity|].
    apply (powers_inj (s_ss x)); auto; apply (kl_len KO KS KL); [eapply VX|eapply VY]; left; reflexivity.
  - apply IH; auto; intros; [eapply VX|eapply VY]; right; eauto.
Qed.
Lemma text_determines_ok {K Tag} (KO : key_ops K) (KS : key_sem K) kt (x y : series K Z Tag) : key_laws KO KS -> key_prints KS kt -> wf KO KS Z_cf x -> wf KO KS Z_cf y ->
  s_ss x = s_ss y -> Forall identifier (s_ss x) -> (len (terms x) <= 50)%nat -> (len (terms y) <= 50)%nat ->
  stream_terms (fun c => Ok (z_string c)) kt false x = stream_terms (fun c => Ok (z_string c)) kt false y -> terms x = terms y.
Proof.
  intros KL KP WX WY SS F LX LY E. destruct (printed_ok KO KS kt KP x WX F) as (t & E1 & R1). destruct (printed_ok KO KS kt KP y WY) as (u & E2 & R2); [rewrite <- SS; exact F|].
  replace (50 <? len (terms x))%nat with false in E1 by (symmetry; apply Nat.ltb_ge; lia). replace (50 <? len (terms y))%nat with false in E2 by (symmetry; apply Nat.ltb_ge; lia).
  rewrite app_s_nil in *. rewrite E1, E2 in E. injection E as <-. rewrite R1 in R2. clear R1 E1 E2.
  apply (shown_inj KO KS); auto. assert (S0 : forall z : series K Z Tag, (len (terms z) <= 50)%nat -> firstn 50 (shown_terms KS z) = shown_terms KS z).
  { intros z L. apply firstn_all2. unfold shown_terms. rewrite map_length. exact L. }
  assert (Z0 : forall (z : series K Z Tag) m r, wf KO KS Z_cf z -> shown_terms KS z = (0, m) :: r -> False).
  { intros z m r W X. unfold shown_terms in X. pose proof (wf_nonzero _ _ _ _ W) as NZ. destruct (terms z) as [|[k c] l]; [discriminate|]. cbn [map fst snd] in X. injection X as X _ _. subst c.
    apply (NZ k 0); [left; reflexivity|reflexivity]. }
  rewrite (S0 x LX), (S0 y LY) in R2. apply (f_equal (fun o => match o with Some l => l | None => [] end)) in R2. cbn beta iota in R2. destruct (terms x) as [|a l] eqn:EX; destruct (terms y) as [|b m] eqn:EY; auto.
  - unfold shown_terms. rewrite EX, EY. reflexivity.
  - exfalso. eapply (Z0 y); eauto.
  - exfalso. eapply (Z0 x); eauto.
Qed.
Theorem text_determines_terms : forall {Tag} D (x y : series Z Z Tag), packable D -> wf (pm_ops D) (pm_sem D) Z_cf x -> wf (pm_ops D) (pm_sem D) Z_cf y ->
  s_ss x = s_ss y -> Forall identifier (s_ss x) -> (len (terms x) <= 50)%nat -> (len (terms y) <= 50)%nat ->
  stream_terms (fun c => Ok (z_string c)) (pm_stream D) false x = stream_terms (fun c => Ok (z_string c)) (pm_stream D) false y -> terms x = terms y.
Proof. intros Tag D x y HD. apply (text_determines_ok (pm_ops D) (pm_sem D)); [apply pm_key_laws; exact HD|apply pm_prints; exact HD]. Qed.
Theorem dpm_text_determines_terms : forall {Tag} D ps (x y : series dpm Z Tag), packable D -> psize_ok D ps -> wf (dpm_ops D ps) (dpm_sem D ps) Z_cf x -> wf (dpm_ops D ps) (dpm_sem D ps) Z_cf y ->
  s_ss x = s_ss y -> Forall identifier (s_ss x) -> (len (terms x) <= 50)%nat -> (len (terms y) <= 50)%nat ->
  stream_terms (fun c => Ok (z_string c)) (dpm_stream D ps) false x = stream_terms (fun c => Ok (z_string c)) (dpm_stream D ps) false y -> terms x = terms y.
Proof. intros Tag D ps x y HD G. apply (text_determines_ok (dpm_ops D ps) (dpm_sem D ps)); [apply dpm_key_laws; auto|apply dpm_prints; auto]. Qed.
