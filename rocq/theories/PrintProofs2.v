(** Proofs about the text of series. *)
From Coq Require Import ZArith List Bool String Ascii DecimalString Lia.
From Verif Require Import Base KpackModel IntModel SymModel PMonModel DPMModel KeyOps SeriesModel PSModel PrintModel PrintSpec PrintProofs.
From Verif Require Import SeriesProofs.
Import ListNotations.
Open Scope Z_scope.
Local Notation len := List.length.

(** * Single terms *)
Lemma front_back c d s : front_is c s = true -> back_is d s = true -> (2 < String.length s)%nat ->
  s = (String c (substring 1 (String.length s - 2) s ++ String d ""))%string /\ substring 1 (String.length s - 2) s <> ""%string.
Proof.
  intros F B L. destruct s as [|e s]; [discriminate|]. cbn in F. apply Ascii.eqb_eq in F. subst e.
  destruct s as [|e s]; [cbn in L; lia|]. assert (B' : back_is d (String e s) = true) by exact B. clear B.
  replace (String.length (String c (String e s)) - 2)%nat with (String.length s) by (cbn; lia).
  change (substring 1 (String.length s) (String c (String e s))) with (substring 0 (String.length s) (String e s)).
  assert (L' : (0 < String.length s)%nat) by (cbn in L; lia). clear L. split.
  - f_equal. clear L'. revert e B'. induction s as [|f s IH]; intros e B.
    + cbn in B. apply Ascii.eqb_eq in B. subst. reflexivity.
    + specialize (IH f B). cbn [String.length substring append]. f_equal. exact IH.
  - destruct s; [cbn in L'; lia|]. cbn. discriminate.
Qed.

Lemma paren_shape s t : in_parens s t -> front_is "(" s = true /\ back_is ")" s = true /\ (2 < String.length s)%nat /\ substring 1 (String.length s - 2) s = t.
Proof.
  intros [-> NE]. cbn [append]. split; [reflexivity|]. split; [|split].
  - assert (A : forall c, back_is ")" (String c (t ++ ")")) = true); [|apply A].
    clear NE. induction t as [|d t IH]; intros c; [reflexivity|]. cbn [append]. change (back_is ")" (String c (String d (t ++ ")")))) with (back_is ")" (String d (t ++ ")"))). apply IH.
  - destruct t as [|d t]; [congruence|]. cbn. assert (0 < String.length (t ++ ")"))%nat by (destruct t; cbn; lia). lia.
  - cbn [String.length]. replace (S (String.length (t ++ ")")) - 2)%nat with (String.length t).
    + cbn [substring]. clear NE. induction t as [|d t IH]; [reflexivity|]. cbn. f_equal. exact IH.
    + clear NE. assert (E : String.length (t ++ ")") = S (String.length t)) by (induction t; cbn; auto). rewrite E. lia.
Qed.

Lemma single_plain c k (tex : bool) : (k <> "1"%string \/ forall t, ~ in_parens c t) ->
  single_term c k tex = product_text (if tex then "" else "*") c k.
Proof.
  intros H. unfold single_term, product_text. destruct (String.eqb_spec k "1") as [E|E]; cbn [negb andb].
  - rewrite !andb_false_r. cbn [andb]. destruct H as [H|H]; [congruence|].
    assert (X : ((2 <? Z.of_nat (String.length c)) && front_is "(" c && back_is ")" c)%bool = false).
    { destruct (_ && _ && _)%bool eqn:X; [|reflexivity]. exfalso. apply andb_true_iff in X as [X B]. apply andb_true_iff in X as [L F].
      apply Z.ltb_lt in L. destruct (front_back "(" ")" c F B ltac:(lia)) as [X1 X2]. apply (H (substring 1 (String.length c - 2) c)). split; [exact X1|exact X2]. }
    rewrite X. rewrite app_s_nil. reflexivity.
  - destruct (String.eqb_spec c "1") as [E1|E1]; cbn [negb andb].
    + reflexivity.
    + destruct (String.eqb_spec c "-1") as [E2|E2]; cbn [negb andb]; [reflexivity|].
      destruct tex; reflexivity.
Qed.

Lemma single_paren c t (tex : bool) : in_parens c t -> single_term c "1" tex = t.
Proof.
  intros H. destruct (paren_shape _ _ H) as (F & B & L & S). unfold single_term. cbn [negb String.eqb Ascii.eqb Bool.eqb andb].
  rewrite !andb_false_r. rewrite F, B. replace (2 <? Z.of_nat (String.length c)) with true by (symmetry; apply Z.ltb_lt; lia).
  cbn [andb]. cbn [append]. rewrite app_s_nil. exact S.
Qed.

(** * Joining *)
Lemma join_eq c s : join_signs (String c s) =
  if Ascii.eqb c "+" then match s with String d s2 => if Ascii.eqb d "-" then String "-" (join_signs s2) else String c (join_signs s) | EmptyString => String c EmptyString end
  else String c (join_signs s).
Proof. reflexivity. Qed.

Definition plus_or_end (s : string) : Prop := s = ""%string \/ exists r, s = String "+" r.
Lemma join_clean t rest : clean t -> plus_or_end rest -> join_signs (t ++ rest) = (t ++ join_signs rest)%string.
Proof.
  intros CL PE. induction t as [|c t IH]; [reflexivity|]. destruct CL as [A CL]. cbn [append]. rewrite join_eq, IH by auto.
  destruct (Ascii.eqb_spec c "+") as [->|N]; [|reflexivity]. specialize (A eq_refl). destruct t as [|d t]; [contradiction|].
  cbn [append]. rewrite <- Ascii.eqb_neq in A. rewrite A. reflexivity.
Qed.

(** "+" before every text. *)
Fixpoint plus_terms (l : list string) : string := match l with [] => "" | t :: l' => ("+" ++ t ++ plus_terms l')%string end.
Lemma plus_terms_end l : plus_or_end (plus_terms l).
Proof. destruct l; [left; reflexivity|right; cbn; eauto]. Qed.
Lemma join_more : forall l, Forall clean l -> join_signs (plus_terms l) = more_terms l.
Proof.
  induction l as [|t l IH]; intros F; [reflexivity|]. inversion F; subst. specialize (IH H2). pose proof (plus_terms_end l) as PE.
  change (plus_terms (t :: l)) with (String "+" (t ++ plus_terms l)). rewrite join_eq. cbn [Ascii.eqb Bool.eqb]. cbn [more_terms].
  destruct t as [|d t].
  - cbn [append begins_minus]. rewrite <- IH. destruct PE as [-> | (r & ->)]; reflexivity.
  - cbn [begins_minus]. cbn [append]. destruct (Ascii.eqb_spec d "-") as [->|N].
    + destruct H1 as [_ H1]. rewrite join_clean by auto. rewrite IH. reflexivity.
    + pose proof (join_clean (String d t) (plus_terms l) H1 PE) as J. cbn [append] in J. rewrite J, IH. reflexivity.
Qed.

Definition plused (l : list string) : string := match l with [] => "" | t :: l' => (t ++ plus_terms l')%string end.
Lemma join_plused l : Forall clean l -> join_signs (plused l) = sum_text l.
Proof.
  destruct l as [|t l]; intros F; [reflexivity|]. inversion F; subst. unfold plused, sum_text.
  rewrite join_clean by (auto using plus_terms_end). rewrite join_more by auto. reflexivity.
Qed.

Section Print.
Context {K C Tag : Type}.
Notation series := (series K C Tag).
Context (cf_text : C -> res string) (key_text : K -> symbol_set -> res string).

(** The texts of the coefficients and the keys exist, and [t] is the text of the term. *)
Definition term_is (tex : bool) (ss : symbol_set) (kc : K * C) (t : string) : Prop :=
  exists tc tk, cf_text (snd kc) = Ok tc /\ key_text (fst kc) ss = Ok tk /\ t = single_term tc tk tex.

Lemma loop_ok tex ss : forall n it ts ret, Forall2 (term_is tex ss) it ts ->
  stream_loop cf_text key_text tex ss n it ret =
  Ok (match n with O => ret | _ => (ret ++ plused (firstn n ts) ++ match it with [] => "" | _ => match skipn n it with [] => "" | _ => "+" end end)%string end, skipn n it).
Proof.
  induction n as [|n IH]; intros it ts ret F; [reflexivity|]. destruct F as [|[k c] t it ts T F].
  - cbn. rewrite app_s_nil. reflexivity.
  - destruct T as (tc & tk & E1 & E2 & ->). cbn [fst snd] in *. cbn [stream_loop]. rewrite E1. cbn [bind]. rewrite E2. cbn [bind].
    rewrite (IH it ts) by auto. f_equal. f_equal. cbn [firstn skipn plused].
    destruct F as [|[k' c'] t' it ts T F].
    + destruct n; cbn [firstn plused plus_terms skipn]; rewrite ?app_s_nil; reflexivity.
    + destruct n as [|n].
      * cbn [firstn plus_terms skipn]. rewrite !app_s_nil. rewrite app_s_assoc. reflexivity.
      * cbn [firstn plused plus_terms skipn]. rewrite !app_s_assoc. reflexivity.
Qed.

(** The text of a series whose terms have the clean texts ts. *)
Lemma terms_text (tex : bool) (x : series) ts : series_empty x = false -> Forall2 (term_is tex (s_ss x)) (terms x) ts -> Forall clean ts -> terms x <> [] ->
  stream_terms cf_text key_text tex x =
  Ok (sum_text (firstn print_limit ts ++ if (print_limit <? len (terms x))%nat then [if tex then "\ldots" else "..."]%string else [])).
Proof.
  intros NE F CL NN. unfold stream_terms. rewrite NE. rewrite (loop_ok tex (s_ss x) print_limit (terms x) ts "" F). unfold print_limit at 1. cbn [bind append].
  destruct (terms x) as [|kc it] eqn:ET; [congruence|]. rewrite <- ET in *. clear NN.
  assert (SK : skipn print_limit (terms x) = [] <-> (len (terms x) <= print_limit)%nat).
  { pose proof (skipn_length print_limit (terms x)) as SL. destruct (skipn print_limit (terms x)); cbn in SL; split; intros; try discriminate; try lia; auto. }
  assert (T1 : exists t l, ts = t :: l). { rewrite ET in F. inversion F; subst. eauto. } destruct T1 as (t & l & ->).
  destruct (print_limit <? len (terms x))%nat eqn:E.
  - apply Nat.ltb_lt in E. assert (SN : skipn print_limit (terms x) <> []) by (intro X; apply SK in X; lia).
    destruct (skipn print_limit (terms x)) as [|q r] eqn:ESK; [congruence|]. cbn [bind].
    f_equal. rewrite <- join_plused.
    + f_equal. unfold print_limit. change (firstn 50 (t :: l)) with (t :: firstn 49 l). cbn [plused app]. rewrite !app_s_assoc. f_equal.
      generalize (firstn 49 l). intros m. clear. induction m as [|u m IH]; [cbn; rewrite ?app_s_nil; reflexivity|].
      cbn [plus_terms app]. rewrite !app_s_assoc, IH. reflexivity.
    + apply Forall_app. split; [|destruct tex; repeat constructor; cbn; intuition discriminate].
      apply Forall_forall. intros u U. rewrite Forall_forall in CL. apply CL. rewrite <- (firstn_skipn print_limit (t :: l)). apply in_or_app. auto.
  - apply Nat.ltb_ge in E. apply SK in E. rewrite E. cbn [bind]. rewrite app_s_nil, app_nil_r. f_equal. apply join_plused.
    apply Forall_forall. intros u U. rewrite Forall_forall in CL. apply CL. rewrite <- (firstn_skipn print_limit (t :: l)). apply in_or_app. auto.
Qed.
End Print.
