(** Properties C48 and C49, continued: any coefficients and symbol names, TeX, coefficients which are series, examples and refutations. *)
From Coq Require Import ZArith List Bool String Ascii Arith Lia.
From Verif Require Import Base KpackModel KpackSpec KpackProofs P_Kpack IntModel SymModel SymSpec PMonModel PMonSpec PMonProofs DPMModel DPMSpec DPMProofs KeyOps KeyInst
  SeriesModel SeriesModel2 SeriesSpec SeriesProofs SeriesProofs2 CfInst PMonProofs2 P_Series2 PolyModel P_Poly2 PSModel PrintModel PrintSpec PrintProofs PrintProofs2 PrintProofs3 P_Print.
Import ListNotations.
Open Scope Z_scope.
Open Scope res_scope.
Local Notation len := List.length.

(** * Any coefficients, any symbol names without "+" *)
Fixpoint no_plus (s : string) : Prop := match s with EmptyString => True | String c s' => c <> "+"%char /\ no_plus s' end.
Lemma no_plus_nop s : no_plus s <-> nop s.
Proof. induction s as [|c s IH]; cbn; [tauto|]. rewrite IH. tauto. Qed.
(** A coefficient is written without "+" and is not in parentheses. *)
Definition plain_cf {C} (ct : C -> string) : Prop := forall c, no_plus (ct c) /\ forall t, ~ in_parens (ct c) t.
(** The text that a series should have: the products of coefficients and monomials, joined by signs, with an ellipsis after fifty terms. *)
Definition expected_text {K C Tag} (KS : key_sem K) (ct : C -> string) (times dots : string) (mono : list (string * Z) -> string) (x : series K C Tag) : string :=
  sum_text (map (fun kc => product_text times (ct (snd kc)) (mono (powers (s_ss x) (ks_exps KS (len (s_ss x)) (fst kc))))) (firstn 50 (terms x)) ++
            if (50 <? len (terms x))%nat then [dots] else []).

Lemma powers_names ss vs P : Forall P ss -> Forall (fun p => P (fst p)) (powers ss vs).
Proof.
  intros F. revert vs. induction F as [|x ss I F IH]; intros vs; [constructor|]. destruct vs as [|v vs]; [constructor|]. cbn [powers].
  destruct (v =? 0); [apply IH|constructor; [exact I|apply IH]].
Qed.
Lemma nop_power_tex p : nop (fst p) -> nop (power_tex p).
Proof.
  intros N. unfold power_tex. repeat apply nop_app; auto; try (cbn; repeat split; discriminate). destruct (_ =? 1); [exact I|].
  repeat apply nop_app; try (cbn; repeat split; discriminate). apply nop_decimal.
Qed.
Lemma nop_powers_tex l : Forall (fun p => nop (fst p)) l -> nop (powers_tex l).
Proof. induction 1; [exact I|]. rewrite powers_tex_cons. apply nop_app; auto. apply nop_power_tex. auto. Qed.
Lemma nop_mono_tex l : Forall (fun p => nop (fst p)) l -> nop (monomial_tex l).
Proof.
  intros F. unfold monomial_tex.
  assert (A : nop (powers_tex (filter (fun p => 0 <? snd p)%Z l))) by (apply nop_powers_tex; rewrite Forall_forall in *; intros p Ip; apply filter_In in Ip as [Ip _]; auto).
  assert (B : nop (powers_tex (filter (fun p => snd p <? 0)%Z l))) by (apply nop_powers_tex; rewrite Forall_forall in *; intros p Ip; apply filter_In in Ip as [Ip _]; auto).
  destruct (filter (fun p => 0 <? snd p)%Z l) as [|p m]; destruct (filter (fun p => snd p <? 0)%Z l) as [|q n]; auto;
    repeat apply nop_app; auto; cbn; repeat split; discriminate.
Qed.
Lemma nop_product_any times c k : nop times -> nop c -> nop k -> nop (product_text times c k).
Proof.
  intros T A B. unfold product_text. destruct (_ =? _)%string; auto. destruct (_ =? _)%string; auto. destruct (_ =? _)%string; repeat apply nop_app; auto;
    cbn; repeat split; discriminate.
Qed.

Section Any.
Context {K C Tag : Type} (KO : key_ops K) (KS : key_sem K) (CO : cf_ops C) (ct : C -> string) (PC : plain_cf ct).
Context (kt : K -> symbol_set -> res string) (tex : bool) (mono : list (string * Z) -> string).
Context (KP : forall k ss, ks_valid KS (len ss) k -> kt k ss = Ok (mono (powers ss (ks_exps KS (len ss) k)))).
Context (MN : forall l, Forall (fun p => nop (fst p)) l -> nop (mono l)).
Lemma any_text (x : series K C Tag) : wf KO KS CO x -> Forall no_plus (s_ss x) ->
  stream_terms (fun c => Ok (ct c)) kt tex x =
  Ok (if series_empty x then "0" else expected_text KS ct (if tex then "" else "*") (if tex then "\ldots" else "...") mono x)%string.
Proof.
  intros W F. destruct (series_empty x) eqn:SE; [unfold stream_terms; rewrite SE; reflexivity|].
  assert (NE : terms x <> []) by (intros E; apply empty_terms in E; congruence).
  set (f := fun kc : K * C => product_text (if tex then "" else "*") (ct (snd kc)) (mono (powers (s_ss x) (ks_exps KS (len (s_ss x)) (fst kc))))).
  assert (T : Forall2 (term_is (fun c => Ok (ct c)) kt tex (s_ss x)) (terms x) (map f (terms x))).
  { pose proof (wf_valid _ _ _ _ W) as V. clear W NE. induction (terms x) as [|[k c] l IH]; [constructor|]. cbn [map]. constructor.
    - exists (ct c), (mono (powers (s_ss x) (ks_exps KS (len (s_ss x)) k))). split; [reflexivity|]. split; [apply KP; apply (V k c); left; reflexivity|].
      symmetry. apply single_plain. right. apply PC.
    - apply IH. intros k' c' I'. apply (V k' c'). right. exact I'. }
  assert (CL : Forall clean (map f (terms x))).
  { apply Forall_forall. intros t I'. apply in_map_iff in I' as (kc & <- & _). apply nop_clean. apply nop_product_any.
    - destruct tex; cbn; repeat split; discriminate.
    - apply no_plus_nop. apply PC.
    - apply MN. apply powers_names. eapply Forall_impl; [|exact F]. intros s. apply no_plus_nop. }
  rewrite (terms_text _ _ tex x _ SE T CL NE). unfold print_limit. rewrite firstn_map. reflexivity.
Qed.
End Any.

(** C49. If the symbol names contain no "+", they are printed as they are: the text is that of the products, in plain text and in TeX. *)
Theorem names_kept_partial : forall {C Tag} (CO : cf_ops C) (ct : C -> string) D (x : series Z C Tag), packable D -> plain_cf ct -> wf (pm_ops D) (pm_sem D) CO x -> Forall no_plus (s_ss x) ->
  stream_terms (fun c => Ok (ct c)) (pm_stream D) false x = Ok (if series_empty x then "0" else expected_text (pm_sem D) ct "*" "..." monomial_text x)%string /\
  stream_terms (fun c => Ok (ct c)) (pm_tex D) true x = Ok (if series_empty x then "0" else expected_text (pm_sem D) ct "" "\ldots" monomial_tex x)%string.
Proof.
  intros C Tag CO ct D x HD PC W F. split.
  - apply (any_text (pm_ops D) (pm_sem D) CO ct PC (pm_stream D) false monomial_text); auto; [apply pm_prints; exact HD|apply nop_mono].
  - apply (any_text (pm_ops D) (pm_sem D) CO ct PC (pm_tex D) true monomial_tex); auto; [|apply nop_mono_tex].
    intros k ss V. apply pm_tex_ok; auto. apply pm_valid_rep; auto.
Qed.
Theorem dpm_names_kept_partial : forall {C Tag} (CO : cf_ops C) (ct : C -> string) D ps (x : series dpm C Tag), packable D -> psize_ok D ps -> plain_cf ct -> wf (dpm_ops D ps) (dpm_sem D ps) CO x -> Forall no_plus (s_ss x) ->
  stream_terms (fun c => Ok (ct c)) (dpm_stream D ps) false x = Ok (if series_empty x then "0" else expected_text (dpm_sem D ps) ct "*" "..." monomial_text x)%string /\
  stream_terms (fun c => Ok (ct c)) (dpm_tex D ps) true x = Ok (if series_empty x then "0" else expected_text (dpm_sem D ps) ct "" "\ldots" monomial_tex x)%string.
Proof.
  intros C Tag CO ct D ps x HD G PC W F. split.
  - apply (any_text (dpm_ops D ps) (dpm_sem D ps) CO ct PC (dpm_stream D ps) false monomial_text); auto; [apply dpm_prints; auto|apply nop_mono].
  - apply (any_text (dpm_ops D ps) (dpm_sem D ps) CO ct PC (dpm_tex D ps) true monomial_tex); auto; [|apply nop_mono_tex].
    intros k ss V. apply dpm_tex_ok; auto. apply dpm_valid_rep; auto.
Qed.
(** Integer coefficients are plain. *)
Lemma decimal_plain : plain_cf z_string.
Proof. intros c. split; [apply no_plus_nop, nop_decimal|apply decimal_no_paren]. Qed.

(** * Coefficients which are series *)
(** The text of a coefficient of a series of polynomials: its terms, in parentheses if there are several. *)
Definition inner_text {K2 Tag2} (KS2 : key_sem K2) (c : series K2 Z Tag2) : string :=
  if series_empty c then "0" else expected_text KS2 z_string "*" "..." monomial_text c.
(** Coefficients in parentheses if they have several terms; no parentheses are needed if the key is 1. *)
Definition nested_product {K2 Tag2} (KS2 : key_sem K2) (c : series K2 Z Tag2) (key : string) : string :=
  if (key =? "1")%string then inner_text KS2 c
  else product_text "*" (if (1 <? len (terms c))%nat then "(" ++ inner_text KS2 c ++ ")" else inner_text KS2 c)%string key.

Lemma clean_app2 a b : clean a -> clean b -> clean (a ++ b)%string.
Proof.
  intros A B. induction a as [|c a IH]; [exact B|]. destruct A as [A1 A2]. cbn [append]. split; [|auto]. intros E. specialize (A1 E). destruct a; [contradiction|exact A1].
Qed.
Lemma clean_product c k : clean c -> nop k -> clean (product_text "*" c k).
Proof.
  intros A B. unfold product_text. destruct (k =? "1")%string; [auto|]. destruct (c =? "1")%string; [apply nop_clean; auto|].
  destruct (c =? "-1")%string; [apply nop_clean; apply nop_app; auto; cbn; repeat split; discriminate|].
  apply clean_app2; [auto|]. apply nop_clean. apply nop_app; auto. cbn; repeat split; discriminate.
Qed.
Lemma clean_more l : Forall clean l -> Forall (fun t => t <> ""%string) l -> clean (more_terms l).
Proof.
  induction l as [|t l IH]; intros F N; [exact I|]. inversion F; subst. inversion N; subst. cbn [more_terms]. destruct (begins_minus t) eqn:E.
  - apply clean_app2; auto.
  - cbn [append]. split; [|apply clean_app2; auto]. intros _. destruct t as [|d t]; [congruence|]. cbn in E |- *. intros ->. discriminate E.
Qed.
Lemma clean_sum l : Forall clean l -> Forall (fun t => t <> ""%string) l -> clean (sum_text l).
Proof. destruct l as [|t l]; intros F N; [exact I|]. inversion F; subst. inversion N; subst. cbn [sum_text]. apply clean_app2; auto. apply clean_more; auto. Qed.

Lemma rterm_text_ne t : ident_powers (snd t) -> rterm_text t <> ""%string.
Proof.
  intros J. unfold rterm_text. rewrite signed_text by auto. destruct (fst t <? 0); [discriminate|]. cbn [append].
  pose proof (lexes_term (Z.abs (fst t)) (snd t) ltac:(lia) J ""%string Logic.I) as L. rewrite app_s_nil in L.
  destruct (term_head (Z.abs (fst t)) (snd t)) as (h & r & E & _). intros X. rewrite X, E in L. discriminate L.
Qed.

Section Nested.
Context {K C Tag K2 Tag2 : Type} (KO : key_ops K) (KS : key_sem K) (KO2 : key_ops K2) (KS2 : key_sem K2).
Context (kt : K -> symbol_set -> res string) (KP : key_prints KS kt) (kt2 : K2 -> symbol_set -> res string) (KP2 : key_prints KS2 kt2).

Lemma inner_shown (c : series K2 Z Tag2) : terms c <> [] ->
  inner_text KS2 c = sum_text (map rterm_text (firstn 50 (shown_terms KS2 c)) ++ if (50 <? len (terms c))%nat then ["..."]%string else []).
Proof.
  intros NE. unfold inner_text. destruct (series_empty c) eqn:SE; [apply empty_terms in SE; congruence|]. unfold expected_text, shown_terms. rewrite firstn_map, map_map. reflexivity.
Qed.
Lemma inner_clean (c : series K2 Z Tag2) : Forall identifier (s_ss c) -> clean (inner_text KS2 c) /\ inner_text KS2 c <> ""%string /\ (len (terms c) <= 1 -> forall t, ~ in_parens (inner_text KS2 c) t)%nat.
Proof.
  intros F. destruct (terms c) as [|kc l] eqn:ET.
  - unfold inner_text. replace (series_empty c) with true by (symmetry; apply empty_terms; exact ET). split; [cbn; repeat split; discriminate|]. split; [discriminate|]. intros _ t P.
    apply paren_shape in P as (P & _). discriminate P.
  - assert (NE : terms c <> []) by (rewrite ET; discriminate). rewrite inner_shown by auto. rewrite <- ET.
    pose proof (shown_ident KS2 c F) as SI. pose proof (ident_clean _ SI) as IC.
    assert (FI : ident_terms (firstn 50 (shown_terms KS2 c))).
    { unfold ident_terms in *. rewrite Forall_forall in *. intros u U. apply SI. rewrite <- (firstn_skipn 50 (shown_terms KS2 c)). apply in_or_app. auto. }
    assert (A1 : Forall clean (map rterm_text (firstn 50 (shown_terms KS2 c)) ++ if (50 <? len (terms c))%nat then ["..."]%string else [])).
    { apply Forall_app. split; [apply ident_clean; exact FI|]. destruct (_ <? _)%nat; repeat constructor; discriminate. }
    assert (A2 : Forall (fun t => t <> ""%string) (map rterm_text (firstn 50 (shown_terms KS2 c)) ++ if (50 <? len (terms c))%nat then ["..."]%string else [])).
    { apply Forall_app. split; [|destruct (_ <? _)%nat; repeat constructor; discriminate]. apply Forall_forall. intros t T. apply in_map_iff in T as (r & <- & R).
      apply rterm_text_ne. unfold ident_terms in FI. rewrite Forall_forall in FI. apply FI. exact R. }
    split; [apply clean_sum; auto|]. split.
    + unfold shown_terms in *. rewrite ET in *. cbn [map firstn app sum_text] in *. inversion A2; subst. destruct (rterm_text _); [congruence|discriminate].
    + intros L1 t P. rewrite ET in L1. destruct l; [|cbn in L1; lia]. unfold shown_terms in P, FI. rewrite ET in P, FI. cbn [map firstn app sum_text len Nat.ltb Nat.leb more_terms] in P, FI.
      rewrite app_s_nil in P. apply paren_shape in P as (P & _). inversion FI; subst. unfold rterm_text in P. rewrite signed_text in P by auto.
      destruct (_ <? 0); [discriminate P|]. cbn [append] in P. match type of P with front_is _ (unsigned_text ?a ?m) = _ => pose proof (lexes_term a m ltac:(lia) ltac:(assumption) ""%string Logic.I) as L; rewrite app_s_nil in L; destruct (term_head a m) as (h & r & E & _); rewrite E in L; destruct (unsigned_text a m) as [|d s]; [discriminate P|] end.
      cbn in P. apply Ascii.eqb_eq in P. subst d. discriminate L.
Qed.
Lemma cf_text_ok (c : series K2 Z Tag2) : wf KO2 KS2 Z_cf c -> Forall identifier (s_ss c) ->
  series_cf_text (fun z => Ok (z_string z)) kt2 false c = Ok (if (1 <? len (terms c))%nat then "(" ++ inner_text KS2 c ++ ")" else inner_text KS2 c)%string.
Proof.
  intros W F. unfold series_cf_text. rewrite (any_text KO2 KS2 Z_cf z_string decimal_plain kt2 false monomial_text KP2 nop_mono c W).
  - cbn [bind]. rewrite size_terms. reflexivity.
  - eapply Forall_impl; [|exact F]. intros s J. apply no_plus_nop, nop_ident. exact J.
Qed.

Lemma nested_ok (CO : cf_ops (series K2 Z Tag2)) (x : series K (series K2 Z Tag2) Tag) : wf KO KS CO x -> Forall identifier (s_ss x) -> terms x <> [] ->
  (forall k c, In (k, c) (terms x) -> wf KO2 KS2 Z_cf c /\ Forall identifier (s_ss c)) ->
  stream_terms (series_cf_text (fun z => Ok (z_string z)) kt2 false) kt false x =
  Ok (sum_text (map (fun kc => nested_product KS2 (snd kc) (monomial_text (powers (s_ss x) (ks_exps KS (len (s_ss x)) (fst kc))))) (firstn 50 (terms x)) ++
                if (50 <? len (terms x))%nat then ["..."]%string else [])).
Proof.
  intros W F NE H. assert (SE : series_empty x = false) by (destruct (series_empty x) eqn:E; [apply empty_terms in E; congruence|reflexivity]).
  set (f := fun kc : K * series K2 Z Tag2 => nested_product KS2 (snd kc) (monomial_text (powers (s_ss x) (ks_exps KS (len (s_ss x)) (fst kc))))).
  assert (T : Forall2 (term_is (series_cf_text (fun z => Ok (z_string z)) kt2 false) kt false (s_ss x)) (terms x) (map f (terms x)) /\ Forall clean (map f (terms x))).
  { pose proof (wf_valid _ _ _ _ W) as V. clear W NE. induction (terms x) as [|[k c] l IH]; [split; constructor|].
    destruct IH as [IH1 IH2]; [intros; eapply H; right; eauto|intros; eapply V; right; eauto|]. destruct (H k c (or_introl eq_refl)) as [WC FC].
    destruct (inner_clean c FC) as (IC & IN & IP). cbn [map]. split; constructor; auto.
    - eexists. exists (monomial_text (powers (s_ss x) (ks_exps KS (len (s_ss x)) k))). split; [apply cf_text_ok; auto|]. split; [apply KP; apply (V k c); left; reflexivity|].
      unfold f, nested_product. cbn [fst snd]. destruct (String.eqb_spec (monomial_text (powers (s_ss x) (ks_exps KS (len (s_ss x)) k))) "1") as [->|NK].
      + destruct (1 <? len (terms c))%nat eqn:L.
        * symmetry. apply single_paren. split; [reflexivity|exact IN].
        * apply Nat.ltb_ge in L. rewrite single_plain; [reflexivity|]. right. apply IP. exact L.
      + symmetry. apply single_plain. left. exact NK.
    - unfold f, nested_product. cbn [fst snd]. destruct (_ =? "1")%string; [exact IC|].
      assert (NM : nop (monomial_text (powers (s_ss x) (ks_exps KS (len (s_ss x)) k)))).
      { apply nop_mono, powers_names. eapply Forall_impl; [|exact F]. intros s. apply nop_ident. }
      apply clean_product; [|exact NM]. destruct (1 <? _)%nat; auto. repeat apply clean_app2; auto; cbn; repeat split; discriminate. }
  destruct T as [T CL]. rewrite (terms_text _ _ false x _ SE T CL NE). unfold print_limit. rewrite firstn_map. reflexivity.
Qed.
End Nested.

(** C48. Polynomials with polynomial coefficients. *)
Theorem nested_text : forall {Tag Tag2} D D2 CO (x : series Z (series Z Z Tag2) Tag), packable D -> packable D2 -> wf (pm_ops D) (pm_sem D) CO x -> Forall identifier (s_ss x) -> terms x <> [] ->
  (forall k c, In (k, c) (terms x) -> wf (pm_ops D2) (pm_sem D2) Z_cf c /\ Forall identifier (s_ss c)) ->
  stream_terms (series_cf_text (fun z => Ok (z_string z)) (pm_stream D2) false) (pm_stream D) false x =
  Ok (sum_text (map (fun kc => nested_product (pm_sem D2) (snd kc) (monomial_text (powers (s_ss x) (ks_exps (pm_sem D) (len (s_ss x)) (fst kc))))) (firstn 50 (terms x)) ++
                if (50 <? len (terms x))%nat then ["..."]%string else [])).
Proof. intros Tag Tag2 D D2 CO x HD HD2. apply nested_ok; apply pm_prints; auto. Qed.

(** * Refutations *)
(** A symbol name in which "+-" occurs is altered: the monomial a+-b (one symbol) is printed as a-b. *)
Theorem names_kept_refuted : exists x : series Z Z Z, wf exK exS Z_cf x /\ s_ss x = ["a+-b"]%string /\
  pm_stream kd_int64 (fst (hd (0, 0) (terms x))) (s_ss x) = Ok "a+-b"%string /\ stream_terms (fun c => Ok (z_string c)) (pm_stream kd_int64) false x = Ok "a-b"%string.
Proof.
  exists (get d0 (exs 0 ["a+-b"]%string 0 [([1], 1)])).
  assert (W := exs_wf 0 ["a+-b"]%string 0 [([1], 1)] (get d0 (exs 0 ["a+-b"]%string 0 [([1], 1)])) ltac:(repeat constructor) ltac:(lia) ltac:(vm_compute; reflexivity) ltac:(vm_compute; reflexivity)).
  destruct W as (W & S & _). split; [exact W|]. split; [exact S|]. split; vm_compute; reflexivity.
Qed.
(** A symbol with the name 1 disappears: 5 times the symbol 1 is printed as the constant 5 is. *)
Theorem symbol_one_refuted : exists x y : series Z Z Z, wf exK exS Z_cf x /\ wf exK exS Z_cf y /\ s_ss x = ["1"]%string /\ s_ss y = ["1"]%string /\
  shown_terms exS x = [(5, [("1"%string, 1)])] /\ shown_terms exS y = [(5, [])] /\
  stream_terms (fun c => Ok (z_string c)) (pm_stream kd_int64) false x = Ok "5"%string /\ stream_terms (fun c => Ok (z_string c)) (pm_stream kd_int64) false y = Ok "5"%string.
Proof.
  exists (get d0 (exs 0 ["1"]%string 0 [([1], 5)])), (get d0 (exs 0 ["1"]%string 0 [([0], 5)])).
  assert (W := exs_wf 0 ["1"]%string 0 [([1], 5)] (get d0 (exs 0 ["1"]%string 0 [([1], 5)])) ltac:(repeat constructor) ltac:(lia) ltac:(vm_compute; reflexivity) ltac:(vm_compute; reflexivity)).
  assert (W2 := exs_wf 0 ["1"]%string 0 [([0], 5)] (get d0 (exs 0 ["1"]%string 0 [([0], 5)])) ltac:(repeat constructor) ltac:(lia) ltac:(vm_compute; reflexivity) ltac:(vm_compute; reflexivity)).
  destruct W as (W & S & _). destruct W2 as (W2 & S2 & _). split; [exact W|]. split; [exact W2|]. split; [exact S|]. split; [exact S2|]. split; [|split; [|split]]; vm_compute; reflexivity.
Qed.
(** Three levels of series: with a, b and x symbols, (a+b)*x, where a+b is the only coefficient (of the unit key) of the coefficient of x, and a+b*x have the same text. *)
Definition lvl1 (l : list (Z * Z)) : series Z Z Z := Series [l] 0 0 ["a"; "b"]%string.
Definition lvl2 (c : series Z Z Z) : series Z (series Z Z Z) Z := Series [[(0, c)]] 0 0 [].
Definition lvl3 (l : list (Z * series Z (series Z Z Z) Z)) : series Z (series Z (series Z Z Z) Z) Z := Series [l] 0 0 ["x"]%string.
Definition a_key := exk [1; 0]. Definition b_key := exk [0; 1].
Definition sum_times_x := lvl3 [(exk [1], lvl2 (lvl1 [(a_key, 1); (b_key, 1)]))].
Definition a_plus_bx := lvl3 [(exk [0], lvl2 (lvl1 [(a_key, 1)])); (exk [1], lvl2 (lvl1 [(b_key, 1)]))].
Definition text3 (x : series Z (series Z (series Z Z Z) Z) Z) : res string :=
  stream_terms (series_cf_text (series_cf_text (fun z => Ok (z_string z)) (pm_stream kd_int64) false) (pm_stream kd_int64) false) (pm_stream kd_int64) false x.
Theorem three_levels_refuted : text3 sum_times_x = Ok "a+b*x"%string /\ text3 a_plus_bx = Ok "a+b*x"%string /\ terms sum_times_x <> terms a_plus_bx.
Proof. split; [|split]; [vm_compute; reflexivity|vm_compute; reflexivity|]. intros E. apply (f_equal (@List.length _)) in E. discriminate E. Qed.

(** * Examples *)
Example ex_x_text : stream_terms (fun c => Ok (z_string c)) (pm_stream kd_int64) false ex_x = Ok "-2*a+7*b+3*a*b**2"%string /\
  read_text "-2*a+7*b+3*a*b**2" = Some (shown_terms exS ex_x) /\
  stream_terms (fun c => Ok (z_string c)) (pm_tex kd_int64) true ex_y = Ok "2{c}^{3}+5{b}-7\frac{1}{{b}}"%string.
Proof. split; [|split]; vm_compute; reflexivity. Qed.
Example ex_x_hyps : wf exK exS Z_cf ex_x /\ Forall identifier (s_ss ex_x) /\ Forall no_plus (s_ss ex_x) /\ plain_cf z_string.
Proof.
  destruct ex_x_wf as (W & S & _). rewrite S. split; [exact W|]. split; [|split; [|exact decimal_plain]]; repeat constructor; discriminate.
Qed.
(** A series of sixty terms. *)
Definition sixty : series Z Z Z := get d0 (exs 0 ["x"]%string 2 (map (fun i => ([Z.of_nat i], Z.of_nat i - 30)) (seq 31 60))).
Example sixty_text : exists t, stream_terms (fun c => Ok (z_string c)) (pm_stream kd_int64) false sixty = Ok (t ++ "+...")%string /\ len (terms sixty) = 60%nat /\
  read_text t = Some (firstn 50 (shown_terms exS sixty)).
Proof.
  assert (W := exs_wf 0 ["x"]%string 2 (map (fun i => ([Z.of_nat i], Z.of_nat i - 30)) (seq 31 60)) sixty ltac:(repeat constructor) ltac:(lia) ltac:(vm_compute; reflexivity) ltac:(vm_compute; reflexivity)).
  destruct W as (W & S & _). assert (L : len (terms sixty) = 60%nat) by (vm_compute; reflexivity).
  destruct (printed_text_reads_back_partial kd_int64 sixty ltac:(right; right; left; reflexivity) W) as (t & E & R); [rewrite S; repeat constructor|].
  rewrite L in E. exists t. split; [exact E|]. split; [exact L|]. destruct (terms sixty); [discriminate L|exact R].
Qed.
(** A polynomial with polynomial coefficients: (a+b)*x - 2*a meets the hypotheses of [nested_text]. *)
Definition nested_cf : cf_ops (series Z Z Z) := {|
  c_zero := d0; c_one := lvl1 [(0, 1)];
  c_add := fun a b => get d0 (series_add exK Z_cf exP Z_tag a b); c_sub := fun a b => get d0 (series_sub exK Z_cf exP Z_tag a b);
  c_mul := fun a b => get d0 (poly_mul exK Z_cf exP Z_tag (exE false 0) a b); c_fma := fun a b c => get d0 (series_add exK Z_cf exP Z_tag a (get d0 (poly_mul exK Z_cf exP Z_tag (exE false 0) b c))); c_neg := series_negate Z_cf;
  c_is_zero := fun a => series_empty a; c_eqb := fun a b => get false (series_equal_to exK Z_cf exP Z_tag a b) |}.
Definition nested_x : series Z (series Z Z Z) Z := Series [[(exk [1], lvl1 [(a_key, 1); (b_key, 1)]); (exk [0], lvl1 [(a_key, -2)])]] 0 0 ["x"]%string.
Example nested_hyps : wf exK exS nested_cf nested_x /\ Forall identifier (s_ss nested_x) /\ terms nested_x <> [] /\
  (forall k c, In (k, c) (terms nested_x) -> wf exK exS Z_cf c /\ Forall identifier (s_ss c)).
Proof.
  assert (V : forall n vs, representsb kd_int64 n (exk vs) vs = true -> ks_valid exS n (exk vs)) by (intros n vs R; exists vs; apply representsb_ok; exact R).
  assert (WS : forall l : list (Z * Z), NoDup (map fst l) -> (forall k c, In (k, c) l -> ks_valid exS 2 k) -> (forall k c, In (k, c) l -> c <> 0) -> wf exK exS Z_cf (lvl1 l)).
  { intros l N L1 L2. constructor; cbn [lvl1 s_ss s_log2 s_tables terms List.concat List.length Nat.pow]; rewrite ?app_nil_r; auto.
    - repeat constructor.
    - apply Nat.le_0_l.
    - intros i t k c E _. destruct i; [|destruct i; discriminate E]. cbn. rewrite Z.mod_1_r. reflexivity.
    - congruence. }
  split; [|split; [repeat constructor|split; [discriminate|]]].
  - constructor; cbn [nested_x s_ss s_log2 s_tables terms List.concat List.length Nat.pow app]; auto.
    + repeat constructor.
    + apply Nat.le_0_l.
    + cbn [map fst]. repeat constructor; cbn; intuition; discriminate.
    + intros k c [E|[E|[]]]; injection E as <- <-; apply V; vm_compute; reflexivity.
    + intros k c [E|[E|[]]]; injection E as <- <-; discriminate.
    + intros i t k c E _. destruct i; [|destruct i; discriminate E]. cbn. rewrite Z.mod_1_r. reflexivity.
    + congruence.
  - intros k c [E|[E|[]]]; injection E as <- <-; (split; [apply WS|repeat constructor]).
    + cbn [map fst]. repeat constructor; cbn; intuition; discriminate.
    + intros k c [E|[E|[]]]; injection E as <- <-; apply V; vm_compute; reflexivity.
    + intros k c [E|[E|[]]]; injection E as <- <-; discriminate.
    + repeat constructor. cbn. tauto.
    + intros k c [E|[]]; injection E as <- <-; apply V; vm_compute; reflexivity.
    + intros k c [E|[]]; injection E as <- <-; discriminate.
Qed.
Example nested_ex : stream_terms (series_cf_text (fun z => Ok (z_string z)) (pm_stream kd_int64) false) (pm_stream kd_int64) false nested_x = Ok "(a+b)*x-2*a"%string.
Proof. vm_compute. reflexivity. Qed.
