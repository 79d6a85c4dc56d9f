(** Property C87: the TeX and plain texts of series with rational or integer coefficients.
    Vocabulary: TexSpec.v ([read_tex], [read_plain]: readers of sums of products; a term that they read is a fraction and a list of powers of names;
    [tex_name]: names of letters, digits and underscores, perhaps after a backslash; [same_qterm]: the same fraction and the same powers in some order),
    PrintSpec.v ([powers ss vs]: the symbols with a nonzero exponent, with their exponents). *)
From Coq Require Import ZArith QArith Qcanon List Bool String Ascii Arith Permutation Lia.
From Verif Require Import Base KpackModel KpackSpec KpackProofs P_Kpack IntModel SymModel SymSpec PMonModel PMonSpec PMonProofs DPMModel DPMSpec DPMProofs KeyOps KeyInst
  SeriesModel SeriesModel2 SeriesSpec SeriesProofs SeriesProofs2 CfInst P_Series2 P_Poly2 P_Calc PSModel PrintModel PrintSpec PrintProofs PrintProofs2 PrintProofs3 P_Print P_Print2
  PMonProofs2 TexSpec TexModel TexProofs TexProofs2.
Import ListNotations.
Open Scope Z_scope.
Open Scope res_scope.
Local Notation len := List.length.

(** * The texts of rational numbers *)
Lemma q_den_pos q : 0 < q_den q.
Proof. unfold q_den. lia. Qed.
Lemma q_zero_den q : q_num q = 0 -> q_den q = 1.
Proof.
  destruct q as [[n d] H]. unfold q_num, q_den. cbn [this Qnum Qden]. intros ->. unfold Qred in H. pose proof (Z.ggcd_gcd 0 (Zpos d)) as G. pose proof (Z.ggcd_correct_divisors 0 (Zpos d)) as C.
  destruct (Z.ggcd 0 (Zpos d)) as [g [a b]]. cbn [fst snd] in *. apply (f_equal Qden) in H. cbn [Qden] in H. change (Z.gcd 0 (Zpos d)) with (Zpos d) in G. subst g. destruct C as [_ C].
  assert (b = 1) by nia. subst b. rewrite <- H. reflexivity.
Qed.
Lemma rational_text_frac q : rational_text q = frac_text (q_num q) (q_den q).
Proof. reflexivity. Qed.
Lemma rational_tex_frac q : rational_tex q = frac_tex (q_num q) (q_den q).
Proof.
  unfold rational_tex, frac_tex. pose proof (q_zero_den q) as Z0. destruct (Z.eqb_spec (q_den q) 1) as [E|N]; [reflexivity|].
  destruct (Z.ltb_spec (q_num q) 0) as [L|L].
  - rewrite Z.sgn_neg by exact L. rewrite Z.abs_neq by lia. cbn [Z.eqb]. rewrite !app_s_assoc. reflexivity.
  - assert (0 < q_num q). { destruct (Z.eq_dec (q_num q) 0) as [E|E]; [|lia]. exfalso. auto. } rewrite Z.sgn_pos by assumption. rewrite Z.abs_eq by exact L. cbn [Z.eqb Pos.eqb]. rewrite !app_s_assoc. reflexivity.
Qed.
Lemma nop_frac_text a b : nop (frac_text a b).
Proof. unfold frac_text. destruct (b =? 1); [apply nop_decimal|]. repeat apply nop_app; try apply nop_decimal. cbn; repeat split; discriminate. Qed.
Lemma nop_frac_tex a b : nop (frac_tex a b).
Proof.
  unfold frac_tex. destruct (b =? 1); [apply nop_decimal|]. repeat apply nop_app; try apply nop_decimal; try (cbn; repeat split; discriminate). destruct (a <? 0); cbn; repeat split; discriminate.
Qed.
Lemma paren_words s t r : in_parens s t -> words None (s ++ r) = None.
Proof. intros [-> _]. reflexivity. Qed.
Lemma frac_text_no_paren a b t : 0 < b -> ~ in_parens (frac_text a b) t.
Proof.
  intros B P. rewrite frac_text_sign in P. destruct (a <? 0) eqn:E; [destruct P as [P _]; discriminate P|]. apply Z.ltb_ge in E. cbn [append] in P. pose proof (paren_words _ _ ""%string P) as N.
  rewrite (wlexs_frac_text (Z.abs a) b ltac:(lia) B) in N by exact Logic.I. discriminate N.
Qed.
Lemma frac_tex_no_paren a b t : 0 < b -> ~ in_parens (frac_tex a b) t.
Proof.
  intros B P. rewrite frac_tex_sign in P. destruct (a <? 0) eqn:E; [destruct P as [P _]; discriminate P|]. apply Z.ltb_ge in E. cbn [append] in P. pose proof (paren_words _ _ ""%string P) as N.
  rewrite (wlexs_frac_tex (Z.abs a) b ltac:(lia) B) in N by exact Logic.I. discriminate N.
Qed.
Lemma rational_text_plain : plain_cf rational_text.
Proof. intros c. rewrite rational_text_frac. split; [apply no_plus_nop, nop_frac_text|intros t; apply frac_text_no_paren, q_den_pos]. Qed.
Lemma rational_tex_plain : plain_cf rational_tex.
Proof. intros c. rewrite rational_tex_frac. split; [apply no_plus_nop, nop_frac_tex|intros t; apply frac_tex_no_paren, q_den_pos]. Qed.
(** The texts of a rational number, read back, are its numerator and denominator. *)
Theorem rational_reads_back : forall q, read_plain (rational_text q) = Some [((q_num q, q_den q), [])] /\ read_tex (rational_tex q) = Some [((q_num q, q_den q), [])].
Proof.
  intros q. assert (O : Forall (okt tex_powers) [((q_num q, q_den q), [])]) by (constructor; [split; [apply q_den_pos|split; constructor]|constructor]).
  assert (N : [((q_num q, q_den q), @nil (string * Z))] <> []) by discriminate. split.
  - pose proof (read_plain_printed _ N O) as R. cbn [map sum_text more_terms fst snd] in R. rewrite app_s_nil in R. exact R.
  - pose proof (read_tex_printed _ N O) as R. cbn [map sum_text more_terms fst snd] in R. rewrite app_s_nil, <- rational_tex_frac in R. exact R.
Qed.

(** * Series *)
(** The terms to be read in the texts of a series; [f]: numerator and denominator of a coefficient. *)
Definition shown_qterms {K C Tag} (KS : key_sem K) (f : C -> Z * Z) (x : series K C Tag) : list qterm :=
  map (fun kc => (f (snd kc), powers (s_ss x) (ks_exps KS (len (s_ss x)) (fst kc)))) (terms x).
Definition expected_qterms {K C Tag} (KS : key_sem K) (f : C -> Z * Z) (x : series K C Tag) : list qterm :=
  match terms x with [] => [((0, 1), [])] | _ => firstn 50 (shown_qterms KS f x) end.
Definition rational_of (q : Qc) : Z * Z := (q_num q, q_den q).
Definition integer_of (n : Z) : Z * Z := (n, 1).

Lemma tex_name_nop s : tex_name s -> no_plus s.
Proof.
  intros T. apply no_plus_nop. destruct s as [|c s]; [contradiction|]. destruct T as [H T]. split; [|apply nop_alnum; exact T]. intros ->. discriminate H.
Qed.
Lemma powers_ok ss vs : Forall tex_name ss -> tex_powers (powers ss vs).
Proof.
  intros F. split; [unfold tex_names; apply powers_names; exact F|]. unfold nonzero_powers. clear F. revert vs. induction ss as [|x ss IH]; intros [|v vs]; try constructor.
  cbn [powers]. destruct (Z.eqb_spec v 0); [apply IH|constructor; [assumption|apply IH]].
Qed.
Lemma up_down_perm l : nonzero_powers l -> Permutation (up l ++ down l) l.
Proof.
  induction 1 as [|[x v] l N F IH]; [constructor|]. cbn [snd] in N. unfold up, down in *. cbn [filter snd]. destruct (0 <? v) eqn:E.
  - apply Z.ltb_lt in E. replace (v <? 0) with false by (symmetry; apply Z.ltb_ge; lia). cbn [app]. constructor. exact IH.
  - apply Z.ltb_ge in E. replace (v <? 0) with true by (symmetry; apply Z.ltb_lt; lia). etransitivity; [symmetry; apply Permutation_middle|]. constructor. exact IH.
Qed.
Lemma sum_more l d : l <> [] -> begins_minus d = false -> sum_text (l ++ [d]) = (sum_text l ++ "+" ++ d)%string.
Proof.
  intros NE B. destruct l as [|t l]; [congruence|]. cbn [app sum_text]. rewrite app_s_assoc. f_equal. induction l as [|u l IH]; [cbn [more_terms app]; rewrite B, app_s_nil; reflexivity|].
  cbn [app more_terms]. rewrite (IH ltac:(discriminate)). destruct (begins_minus u); rewrite !app_s_assoc; reflexivity.
Qed.

Section Series.
Context {K C Tag : Type} (KO : key_ops K) (KS : key_sem K) (CO : cf_ops C) (f : C -> Z * Z) (F : forall c, 0 < snd (f c)).
Notation series := (series K C Tag).
Lemma shown_okt (x : series) : Forall tex_name (s_ss x) -> Forall (okt tex_powers) (shown_qterms KS f x).
Proof. intros N. apply Forall_forall. intros t I. apply in_map_iff in I as (kc & <- & _). split; [apply F|apply powers_ok; exact N]. Qed.
Lemma firstn_all_of {A} (P : A -> Prop) n l : Forall P l -> Forall P (firstn n l).
Proof. rewrite !Forall_forall. intros H a I. apply H. rewrite <- (firstn_skipn n l). apply in_or_app. auto. Qed.
(** The expected text is a sum of terms and, perhaps, an ellipsis. *)
Lemma expected_split (ct : C -> string) times dots mono (x : series) : terms x <> [] -> begins_minus dots = false ->
  expected_text KS ct times dots mono x =
  (sum_text (map (fun kc => product_text times (ct (snd kc)) (mono (powers (s_ss x) (ks_exps KS (len (s_ss x)) (fst kc))))) (firstn 50 (terms x))) ++
   if (50 <? len (terms x))%nat then "+" ++ dots else "")%string.
Proof.
  intros NE B. unfold expected_text. destruct (50 <? len (terms x))%nat; [|rewrite app_nil_r, app_s_nil; reflexivity]. rewrite sum_more; [reflexivity| |exact B].
  destruct (terms x); [congruence|discriminate].
Qed.
Lemma plain_reads (ct : C -> string) (x : series) t : (forall c, ct c = frac_text (fst (f c)) (snd (f c))) -> wf KO KS CO x -> Forall tex_name (s_ss x) ->
  t = (if series_empty x then "0" else expected_text KS ct "*" "..." monomial_text x)%string ->
  exists u, t = (u ++ if (50 <? len (terms x))%nat then "+..." else "")%string /\ read_plain u = Some (expected_qterms KS f x).
Proof.
  intros CT W N ->. unfold expected_qterms. destruct (series_empty x) eqn:SE.
  - apply empty_terms in SE. rewrite SE. exists "0"%string. split; reflexivity.
  - assert (NE : terms x <> []) by (intros E; apply empty_terms in E; congruence). eexists. split; [apply expected_split; [exact NE|reflexivity]|].
    replace (map _ (firstn 50 (terms x))) with (map (fun t : qterm => product_text "*" (frac_text (fst (fst t)) (snd (fst t))) (monomial_text (snd t))) (firstn 50 (shown_qterms KS f x))).
    + rewrite read_plain_printed; [destruct (terms x); [congruence|reflexivity]| |apply firstn_all_of, shown_okt; exact N]. unfold shown_qterms. destruct (terms x); [congruence|discriminate].
    + unfold shown_qterms. rewrite firstn_map, map_map. apply map_ext. intros [k c]. cbn [fst snd]. rewrite CT. reflexivity.
Qed.
Lemma tex_reads (ct : C -> string) (x : series) t : (forall c, ct c = frac_tex (fst (f c)) (snd (f c))) -> wf KO KS CO x -> Forall tex_name (s_ss x) ->
  t = (if series_empty x then "0" else expected_text KS ct "" "\ldots" monomial_tex x)%string ->
  exists u l, t = (u ++ if (50 <? len (terms x))%nat then "+\ldots" else "")%string /\ read_tex u = Some l /\ Forall2 same_qterm l (expected_qterms KS f x).
Proof.
  intros CT W N ->. unfold expected_qterms. destruct (series_empty x) eqn:SE.
  - apply empty_terms in SE. rewrite SE. exists "0"%string, [((0, 1), [])]. split; [reflexivity|]. split; [reflexivity|]. constructor; [split; reflexivity|constructor].
  - assert (NE : terms x <> []) by (intros E; apply empty_terms in E; congruence). eexists _, _. split; [apply expected_split; [exact NE|reflexivity]|].
    replace (map _ (firstn 50 (terms x))) with (map (fun t : qterm => product_text "" (frac_tex (fst (fst t)) (snd (fst t))) (monomial_tex (snd t))) (firstn 50 (shown_qterms KS f x))).
    + pose proof (firstn_all_of _ 50 _ (shown_okt x N)) as FO. split; [apply read_tex_printed; [|exact FO]; unfold shown_qterms; destruct (terms x); [congruence|discriminate]|].
      replace (match terms x with [] => _ | _ => _ end) with (firstn 50 (shown_qterms KS f x)) by (destruct (terms x); [congruence|reflexivity]).
      induction FO as [|t l O FO IH]; [constructor|]. cbn [map]. constructor; [|exact IH]. split; [reflexivity|]. apply up_down_perm. apply O.
    + unfold shown_qterms. rewrite firstn_map, map_map. apply map_ext. intros [k c]. cbn [fst snd]. rewrite CT. reflexivity.
Qed.
End Series.

(** C87. The terms of a series with rational coefficients in plain text and in TeX (wherever they are stored and in whatever order they are visited), read back, are its terms
    (the first fifty, followed by an ellipsis, if there are more); in TeX the powers with negative exponents are read below a fraction bar. *)
Theorem rational_texts_read_back : forall {Tag} D (x : series Z Qc Tag), packable D -> wf (pm_ops D) (pm_sem D) Qc_cf x -> Forall tex_name (s_ss x) ->
  (exists t, stream_terms (fun c => Ok (rational_text c)) (pm_stream D) false x = Ok (t ++ if (50 <? len (terms x))%nat then "+..." else "")%string /\
     read_plain t = Some (expected_qterms (pm_sem D) rational_of x)) /\
  (exists t l, stream_terms (fun c => Ok (rational_tex c)) (pm_tex D) true x = Ok (t ++ if (50 <? len (terms x))%nat then "+\ldots" else "")%string /\
     read_tex t = Some l /\ Forall2 same_qterm l (expected_qterms (pm_sem D) rational_of x)).
Proof.
  intros Tag D x HD W N. assert (NP : Forall no_plus (s_ss x)) by (eapply Forall_impl; [|exact N]; exact tex_name_nop). split.
  - rewrite (proj1 (names_kept_partial Qc_cf rational_text D x HD rational_text_plain W NP)).
    destruct (plain_reads (pm_ops D) (pm_sem D) Qc_cf rational_of q_den_pos rational_text x _ rational_text_frac W N eq_refl) as (u & E & R). exists u. split; [f_equal; exact E|exact R].
  - rewrite (proj2 (names_kept_partial Qc_cf rational_tex D x HD rational_tex_plain W NP)).
    destruct (tex_reads (pm_ops D) (pm_sem D) Qc_cf rational_of q_den_pos rational_tex x _ rational_tex_frac W N eq_refl) as (u & l & E & R). exists u, l. split; [f_equal; exact E|exact R].
Qed.
Theorem dpm_rational_texts_read_back : forall {Tag} D ps (x : series dpm Qc Tag), packable D -> psize_ok D ps -> wf (dpm_ops D ps) (dpm_sem D ps) Qc_cf x -> Forall tex_name (s_ss x) ->
  (exists t, stream_terms (fun c => Ok (rational_text c)) (dpm_stream D ps) false x = Ok (t ++ if (50 <? len (terms x))%nat then "+..." else "")%string /\
     read_plain t = Some (expected_qterms (dpm_sem D ps) rational_of x)) /\
  (exists t l, stream_terms (fun c => Ok (rational_tex c)) (dpm_tex D ps) true x = Ok (t ++ if (50 <? len (terms x))%nat then "+\ldots" else "")%string /\
     read_tex t = Some l /\ Forall2 same_qterm l (expected_qterms (dpm_sem D ps) rational_of x)).
Proof.
  intros Tag D ps x HD G W N. assert (NP : Forall no_plus (s_ss x)) by (eapply Forall_impl; [|exact N]; exact tex_name_nop). split.
  - rewrite (proj1 (dpm_names_kept_partial Qc_cf rational_text D ps x HD G rational_text_plain W NP)).
    destruct (plain_reads (dpm_ops D ps) (dpm_sem D ps) Qc_cf rational_of q_den_pos rational_text x _ rational_text_frac W N eq_refl) as (u & E & R). exists u. split; [f_equal; exact E|exact R].
  - rewrite (proj2 (dpm_names_kept_partial Qc_cf rational_tex D ps x HD G rational_tex_plain W NP)).
    destruct (tex_reads (dpm_ops D ps) (dpm_sem D ps) Qc_cf rational_of q_den_pos rational_tex x _ rational_tex_frac W N eq_refl) as (u & l & E & R). exists u, l. split; [f_equal; exact E|exact R].
Qed.
(** The same with integer coefficients, in TeX (for plain text see C48). *)
Lemma z_frac_tex c : z_string c = frac_tex (fst (integer_of c)) (snd (integer_of c)).
Proof. reflexivity. Qed.
Theorem integer_tex_reads_back : forall {Tag} D (x : series Z Z Tag), packable D -> wf (pm_ops D) (pm_sem D) Z_cf x -> Forall tex_name (s_ss x) ->
  exists t l, stream_terms (fun c => Ok (z_string c)) (pm_tex D) true x = Ok (t ++ if (50 <? len (terms x))%nat then "+\ldots" else "")%string /\
     read_tex t = Some l /\ Forall2 same_qterm l (expected_qterms (pm_sem D) integer_of x).
Proof.
  intros Tag D x HD W N. assert (NP : Forall no_plus (s_ss x)) by (eapply Forall_impl; [|exact N]; exact tex_name_nop).
  rewrite (proj2 (names_kept_partial Z_cf z_string D x HD decimal_plain W NP)).
  destruct (tex_reads (pm_ops D) (pm_sem D) Z_cf integer_of (fun c => eq_refl) z_string x _ z_frac_tex W N eq_refl) as (u & l & E & R). exists u, l. split; [f_equal; exact E|exact R].
Qed.
Theorem dpm_integer_tex_reads_back : forall {Tag} D ps (x : series dpm Z Tag), packable D -> psize_ok D ps -> wf (dpm_ops D ps) (dpm_sem D ps) Z_cf x -> Forall tex_name (s_ss x) ->
  exists t l, stream_terms (fun c => Ok (z_string c)) (dpm_tex D ps) true x = Ok (t ++ if (50 <? len (terms x))%nat then "+\ldots" else "")%string /\
     read_tex t = Some l /\ Forall2 same_qterm l (expected_qterms (dpm_sem D ps) integer_of x).
Proof.
  intros Tag D ps x HD G W N. assert (NP : Forall no_plus (s_ss x)) by (eapply Forall_impl; [|exact N]; exact tex_name_nop).
  rewrite (proj2 (dpm_names_kept_partial Z_cf z_string D ps x HD G decimal_plain W NP)).
  destruct (tex_reads (dpm_ops D ps) (dpm_sem D ps) Z_cf integer_of (fun c => eq_refl) z_string x _ z_frac_tex W N eq_refl) as (u & l & E & R). exists u, l. split; [f_equal; exact E|exact R].
Qed.

(** Different series have different texts: series over the same symbols with at most fifty terms and the same text, plain or TeX, have the same terms. *)
Lemma powers_names_nodup (ss : symbol_set) vs : NoDup ss -> NoDup (map fst (powers ss vs)).
Proof.
  revert vs. induction ss as [|x ss IH]; intros [|v vs] N; try constructor. inversion N; subst. cbn [powers]. destruct (v =? 0); [apply IH; auto|]. cbn [map fst]. constructor; [|apply IH; auto].
  intros I. apply H1. apply in_map_iff in I as ([y e] & <- & I). cbn [fst]. clear -I. revert vs I. induction ss as [|z ss IH]; intros [|u vs] I; try contradiction. cbn [powers] in I.
  destruct (u =? 0); [right; eapply IH; eauto|]. destruct I as [I|I]; [inversion I; subst; left; reflexivity|right; eapply IH; eauto].
Qed.
Lemma powers_mem (ss : symbol_set) : forall vs x e, In (x, e) (powers ss vs) -> In x ss.
Proof.
  induction ss as [|z ss IH]; intros [|u vs] x e I; try contradiction. cbn [powers] in I. destruct (u =? 0); [right; eapply IH; eauto|].
  destruct I as [I|I]; [inversion I; subst; left; reflexivity|right; eapply IH; eauto].
Qed.
Lemma powers_perm_inj (ss : symbol_set) : forall vs ws, NoDup ss -> len vs = len ss -> len ws = len ss -> Permutation (powers ss vs) (powers ss ws) -> vs = ws.
Proof.
  induction ss as [|x ss IH]; intros [|v vs] [|w ws] N L1 L2 P; try discriminate; [reflexivity|]. inversion N; subst. cbn [powers] in P.
  destruct (Z.eqb_spec v 0) as [->|NV]; destruct (Z.eqb_spec w 0) as [->|NW].
  - f_equal. apply IH; auto.
  - exfalso. apply H1. eapply powers_mem. eapply Permutation_in; [symmetry; exact P|left; reflexivity].
  - exfalso. apply H1. eapply powers_mem. eapply Permutation_in; [exact P|left; reflexivity].
  - assert (v = w).
    { assert (I : In (x, v) ((x, w) :: powers ss ws)) by (eapply Permutation_in; [exact P|left; reflexivity]). destruct I as [I|I]; [inversion I; reflexivity|]. exfalso. apply H1. eapply powers_mem; eauto. }
    subst w. f_equal. apply IH; auto. eapply Permutation_cons_inv. exact P.
Qed.
Section Determined.
Context {K C Tag : Type} (KO : key_ops K) (KS : key_sem K) (KL : key_laws KO KS) (CO : cf_ops C) (f : C -> Z * Z) (FI : forall c d, f c = f d -> c = d) (FZ : forall c, f c = (0, 1) -> c = c_zero CO).
Notation series := (series K C Tag).
Lemma shown_determines (x y : series) : wf KO KS CO x -> wf KO KS CO y -> s_ss x = s_ss y -> (len (terms x) <= 50)%nat -> (len (terms y) <= 50)%nat ->
  Forall2 same_qterm (expected_qterms KS f x) (expected_qterms KS f y) -> terms x = terms y.
Proof.
  intros WX WY SS LX LY H. pose proof (sorted_set_nodup _ (wf_ss _ _ _ _ WX)) as ND.
  assert (S0 : forall z : series, (len (terms z) <= 50)%nat -> firstn 50 (shown_qterms KS f z) = shown_qterms KS f z).
  { intros z L. apply firstn_all2. unfold shown_qterms. rewrite map_length. exact L. }
  assert (Z0 : forall (z : series) t r, wf KO KS CO z -> shown_qterms KS f z = t :: r -> fst t = (0, 1) -> False).
  { intros z t r W E T. unfold shown_qterms in E. pose proof (wf_nonzero _ _ _ _ W) as NZ. destruct (terms z) as [|[k c] l] eqn:ET; [discriminate|]. cbn [map fst snd] in E.
    apply (f_equal (fun l => match l with a :: _ => fst a | [] => (0, 1) end)) in E. cbn beta iota in E. cbn [fst] in E. rewrite T in E. apply FZ in E.
    exact (NZ k c ltac:(left; reflexivity) E). }
  unfold expected_qterms in H. rewrite (S0 x LX), (S0 y LY) in H. destruct (terms x) as [|a l] eqn:EX; destruct (terms y) as [|b m] eqn:EY; [reflexivity|..].
  - exfalso. inversion H as [|? ? ? ? T]; subst. eapply (Z0 y); [exact WY|symmetry; eassumption|]. symmetry. apply T.
  - exfalso. inversion H as [|? ? ? ? T]; subst. eapply (Z0 x); [exact WX|symmetry; eassumption|]. apply T.
  - rewrite <- EX, <- EY. clear S0 Z0. pose proof (wf_valid _ _ _ _ WX) as VX. pose proof (wf_valid _ _ _ _ WY) as VY. rewrite <- SS in VY. unfold shown_qterms in H. rewrite <- SS in H.
    clear WX WY LX LY EX EY. revert H VX VY. generalize (terms x) (terms y). induction l0 as [|[k c] t IH]; intros [|[k' c'] t'] H VX VY; [reflexivity|inversion H|inversion H|].
    cbn [map fst snd] in H. inversion H as [|? ? ? ? [T1 T2] HR]; subst. cbn [fst snd] in T1, T2. apply FI in T1. subst c'. f_equal.
    + f_equal. apply (kl_inj KO KS KL (len (s_ss x))); [eapply VX; left; reflexivity|eapply VY; left; reflexivity|].
      apply (powers_perm_inj (s_ss x)); auto; apply (kl_len KO KS KL); [eapply VX|eapply VY]; left; reflexivity.
    + apply IH; [exact HR| |]; intros; [eapply VX|eapply VY]; right; eauto.
Qed.
Lemma same_sym l m : Forall2 same_qterm l m -> Forall2 same_qterm m l.
Proof. induction 1 as [|a b l m [E P] H IH]; constructor; auto. split; [auto|symmetry; exact P]. Qed.
Lemma same_trans l m n : Forall2 same_qterm l m -> Forall2 same_qterm m n -> Forall2 same_qterm l n.
Proof.
  intros H. revert n. induction H as [|a b l m [E P] H IH]; intros n J; inversion J as [|? c ? ? [E' P'] J']; subst; constructor; auto. split; [congruence|etransitivity; eassumption].
Qed.
Lemma same_refl l : Forall2 same_qterm l l.
Proof. induction l; constructor; auto. split; reflexivity. Qed.
End Determined.
Lemma rational_of_inj p q : rational_of p = rational_of q -> p = q.
Proof.
  destruct p as [[n d] H], q as [[m e] J]. unfold rational_of, q_num, q_den. cbn [this Qnum Qden]. intros E. injection E as -> ->. apply Qc_is_canon. reflexivity.
Qed.
Lemma rational_of_zero q : rational_of q = (0, 1) -> q = c_zero Qc_cf.
Proof. intros E. apply rational_of_inj. rewrite E. reflexivity. Qed.
Theorem rational_texts_determine : forall {Tag} D (x y : series Z Qc Tag), packable D -> wf (pm_ops D) (pm_sem D) Qc_cf x -> wf (pm_ops D) (pm_sem D) Qc_cf y ->
  s_ss x = s_ss y -> Forall tex_name (s_ss x) -> (len (terms x) <= 50)%nat -> (len (terms y) <= 50)%nat ->
  stream_terms (fun c => Ok (rational_text c)) (pm_stream D) false x = stream_terms (fun c => Ok (rational_text c)) (pm_stream D) false y \/
  stream_terms (fun c => Ok (rational_tex c)) (pm_tex D) true x = stream_terms (fun c => Ok (rational_tex c)) (pm_tex D) true y ->
  terms x = terms y.
Proof.
  intros Tag D x y HD WX WY SS N LX LY E. apply (shown_determines (pm_ops D) (pm_sem D) (pm_key_laws D HD) Qc_cf rational_of rational_of_inj rational_of_zero x y WX WY SS LX LY).
  destruct (rational_texts_read_back D x HD WX N) as ((t & E1 & R1) & (u & l & E2 & R2 & Q2)). destruct (rational_texts_read_back D y HD WY) as ((t' & E1' & R1') & (u' & l' & E2' & R2' & Q2')); [rewrite <- SS; exact N|].
  replace (50 <? len (terms x))%nat with false in * by (symmetry; apply Nat.ltb_ge; lia). replace (50 <? len (terms y))%nat with false in * by (symmetry; apply Nat.ltb_ge; lia).
  rewrite app_s_nil in *. destruct E as [E|E].
  - rewrite E1, E1' in E. assert (t' = t) by congruence. subst t'. rewrite R1 in R1'. replace (expected_qterms (pm_sem D) rational_of y) with (expected_qterms (pm_sem D) rational_of x) by congruence. apply same_refl.
  - rewrite E2, E2' in E. assert (u' = u) by congruence. subst u'. rewrite R2 in R2'. assert (l' = l) by congruence. subst l'. eapply same_trans; [apply same_sym; exact Q2|exact Q2'].
Qed.

Theorem dpm_rational_texts_determine : forall {Tag} D ps (x y : series dpm Qc Tag), packable D -> psize_ok D ps -> wf (dpm_ops D ps) (dpm_sem D ps) Qc_cf x -> wf (dpm_ops D ps) (dpm_sem D ps) Qc_cf y ->
  s_ss x = s_ss y -> Forall tex_name (s_ss x) -> (len (terms x) <= 50)%nat -> (len (terms y) <= 50)%nat ->
  stream_terms (fun c => Ok (rational_text c)) (dpm_stream D ps) false x = stream_terms (fun c => Ok (rational_text c)) (dpm_stream D ps) false y \/
  stream_terms (fun c => Ok (rational_tex c)) (dpm_tex D ps) true x = stream_terms (fun c => Ok (rational_tex c)) (dpm_tex D ps) true y ->
  terms x = terms y.
Proof.
  intros Tag D ps x y HD G WX WY SS N LX LY E. apply (shown_determines (dpm_ops D ps) (dpm_sem D ps) (dpm_key_laws D ps HD G) Qc_cf rational_of rational_of_inj rational_of_zero x y WX WY SS LX LY).
  destruct (dpm_rational_texts_read_back D ps x HD G WX N) as ((t & E1 & R1) & (u & l & E2 & R2 & Q2)). destruct (dpm_rational_texts_read_back D ps y HD G WY) as ((t' & E1' & R1') & (u' & l' & E2' & R2' & Q2')); [rewrite <- SS; exact N|].
  replace (50 <? len (terms x))%nat with false in * by (symmetry; apply Nat.ltb_ge; lia). replace (50 <? len (terms y))%nat with false in * by (symmetry; apply Nat.ltb_ge; lia).
  rewrite app_s_nil in *. destruct E as [E|E].
  - rewrite E1, E1' in E. assert (t' = t) by congruence. subst t'. rewrite R1 in R1'. replace (expected_qterms (dpm_sem D ps) rational_of y) with (expected_qterms (dpm_sem D ps) rational_of x) by congruence. apply same_refl.
  - rewrite E2, E2' in E. assert (u' = u) by congruence. subst u'. rewrite R2 in R2'. assert (l' = l) by congruence. subst l'. eapply same_trans; [apply same_sym; exact Q2|exact Q2'].
Qed.

(** A series with rational coefficients and positive and negative exponents. *)
Definition texq_terms : list (Z * Qc) := [(exk [2; 0], Q2Qc (3 # 4)); (exk [1; -2], Q2Qc (-5 # 6)); (exk [0; 0], Q2Qc (7 # 1)); (exk [0; 1], Q2Qc (-1 # 1)); (exk [-1; -1], Q2Qc (1 # 1))].
Definition texq : series Z Qc Z := get (series_default Z_tag) (buildC exK Qc_cf (po_front _) 0 ["\alpha"; "b_1"]%string 2 texq_terms).
Lemma texq_wf : wf exK exS Qc_cf texq /\ s_ss texq = ["\alpha"; "b_1"]%string /\ Forall tex_name (s_ss texq).
Proof.
  assert (W : wf exK exS Qc_cf texq /\ s_ss texq = ["\alpha"; "b_1"]%string /\ s_log2 texq = 2%nat /\ s_tag texq = 0).
  { apply (buildC_wf exK exS Qc_cf (po_front _) 0 ["\alpha"; "b_1"]%string 2 texq_terms); [exact exK_laws|exact Qc_cf_laws|repeat constructor|lia| |apply get_ok; vm_compute; reflexivity].
    assert (F : Forall (ks_valid exS 2) (map fst texq_terms)).
    { assert (G : forallb (fun k => existsb (fun v => representsb kd_int64 2 k v) [[2; 0]; [1; -2]; [0; 0]; [0; 1]; [-1; -1]]) (map fst texq_terms) = true) by (vm_compute; reflexivity).
      rewrite forallb_forall in G. apply Forall_forall. intros k Hk. apply G, existsb_exists in Hk. destruct Hk as (v & Hv & R). exists v. apply representsb_ok; auto. }
    intros k c Hk. apply (proj1 (Forall_forall _ _) F). apply (in_map fst) in Hk. exact Hk. }
  destruct W as (W & S & _). split; [exact W|]. split; [exact S|]. rewrite S. repeat constructor.
Qed.
Example texq_texts :
  stream_terms (fun c => Ok (rational_text c)) (pm_stream kd_int64) false texq = Ok "7-b_1+\alpha**-1*b_1**-1+3/4*\alpha**2-5/6*\alpha*b_1**-2"%string /\
  stream_terms (fun c => Ok (rational_tex c)) (pm_tex kd_int64) true texq = Ok "7-{b_1}+\frac{1}{{\alpha}{b_1}}+\frac{3}{4}{\alpha}^{2}-\frac{5}{6}\frac{{\alpha}}{{b_1}^{2}}"%string.
Proof. split; vm_compute; reflexivity. Qed.
(** The fraction bars of the text are those of the reader: what is read in the TeX text above. *)
Example texq_read : read_tex "7-{b_1}+\frac{1}{{\alpha}{b_1}}+\frac{3}{4}{\alpha}^{2}-\frac{5}{6}\frac{{\alpha}}{{b_1}^{2}}" =
  Some [((7, 1), []); ((-1, 1), [("b_1", 1)]); ((1, 1), [("\alpha", -1); ("b_1", -1)]); ((3, 4), [("\alpha", 2)]); ((-5, 6), [("\alpha", 1); ("b_1", -2)])]%string.
Proof. reflexivity. Qed.

Print Assumptions rational_reads_back.
Print Assumptions rational_texts_read_back.
Print Assumptions dpm_rational_texts_read_back.
Print Assumptions integer_tex_reads_back.
Print Assumptions dpm_integer_tex_reads_back.
Print Assumptions rational_texts_determine.
Print Assumptions dpm_rational_texts_determine.
