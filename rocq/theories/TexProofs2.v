(** The readers of TexSpec, continued: whole sums, in TeX and in plain text. *)
From Coq Require Import ZArith List Bool String Ascii DecimalString Permutation Lia.
From Verif Require Import Base SymModel PrintModel PrintSpec PrintProofs PrintProofs2 PrintProofs3 TexSpec TexProofs.
Import ListNotations.
Open Scope Z_scope.
Local Notation len := List.length.

(** * Sums of terms, for any text of a term which begins with its sign *)
Section Sums.
Context (body : Z -> Z -> list (string * Z) -> string) (bw : Z -> Z -> list (string * Z) -> list word) (okl : list (string * Z) -> Prop).
Context (out : Z -> Z -> list (string * Z) -> qterm) (RD : bool -> list word -> option (list qterm)).
Context (BW : forall a b l, 0 <= a -> 0 < b -> okl l -> wlexs (body a b l) (bw a b l)).
Context (BH : forall a b l, match bw a b l with [] | WMinus :: _ => False | _ => True end).
Context (R0 : forall neg a b l, okl l -> RD neg (bw a b l) = Some [qneg neg (out a b l)]).
Context (R1 : forall neg a b l r, okl l -> RD neg (bw a b l ++ WPlus :: r) = cons_term (qneg neg (out a b l)) (RD false r)).
Context (R2 : forall neg a b l r, okl l -> RD neg (bw a b l ++ WMinus :: r) = cons_term (qneg neg (out a b l)) (RD true r)).

Definition full (t : qterm) : string := ((if (fst (fst t) <? 0)%Z then "-" else "") ++ body (Z.abs (fst (fst t))) (snd (fst t)) (snd t))%string.
Lemma full_eq t : full t = ((if (fst (fst t) <? 0)%Z then "-" else "") ++ body (Z.abs (fst (fst t))) (snd (fst t)) (snd t))%string.
Proof. reflexivity. Qed.
Definition okt (t : qterm) : Prop := 0 < snd (fst t) /\ okl (snd t).
Definition outt (t : qterm) : qterm := qneg (fst (fst t) <? 0) (out (Z.abs (fst (fst t))) (snd (fst t)) (snd t)).
Definition bwt (t : qterm) : list word := bw (Z.abs (fst (fst t))) (snd (fst t)) (snd t).
Definition signed (t : qterm) : list word := (if fst (fst t) <? 0 then WMinus else WPlus) :: bwt t.
Definition more_words (l : list qterm) : list word := List.concat (map signed l).
Lemma okt_words t : okt t -> wlexs (body (Z.abs (fst (fst t))) (snd (fst t)) (snd t)) (bwt t).
Proof. intros [B O]. apply BW; auto. lia. Qed.

Lemma full_minus t : okt t -> begins_minus (full t) = (fst (fst t) <? 0).
Proof.
  intros O. unfold full. destruct (fst (fst t) <? 0); [reflexivity|]. cbn [append]. pose proof (okt_words t O ""%string Logic.I) as L. rewrite app_s_nil in L.
  pose proof (BH (Z.abs (fst (fst t))) (snd (fst t)) (snd t)) as H. fold (bwt t) in H. destruct (body _ _ _) as [|d s]; [reflexivity|]. unfold begins_minus.
  destruct (Ascii.eqb_spec d "-") as [->|]; [exfalso|reflexivity]. rewrite (words_sign "-" WMinus) in L by reflexivity.
  destruct (bwt t) as [|w r]; [contradiction|]. cbn [words finish app_word] in L. destruct (words None s) as [m|]; [|discriminate L]. cbn in L. injection L as L1 L2. subst w. exact H.
Qed.
Lemma more_stop l : Forall okt l -> stop (more_terms (map full l)).
Proof.
  destruct l as [|t l]; [intros; exact Logic.I|]. intros F. inversion F; subst. cbn [map more_terms]. destruct (begins_minus (full t)) eqn:E.
  - destruct (full t) as [|d s]; [discriminate|]. cbn in E. apply Ascii.eqb_eq in E. subst. apply stop_char; reflexivity.
  - cbn [append]. apply stop_char; reflexivity.
Qed.
Lemma words_more : forall l, Forall okt l -> words None (more_terms (map full l)) = Some (more_words l).
Proof.
  induction l as [|t l IH]; intros F; [reflexivity|]. pose proof F as F'. inversion F' as [|? ? O F'']; subst. cbn [map more_terms]. rewrite (full_minus t O). unfold more_words. cbn [map List.concat].
  fold (more_words l). unfold signed. rewrite (full_eq t). destruct (fst (fst t) <? 0).
  - rewrite app_s_assoc. change ("-" ++ ?x)%string with (String "-" x). rewrite (words_sign "-" WMinus) by reflexivity. rewrite (okt_words t O) by (apply more_stop; exact F''). rewrite IH by exact F''. reflexivity.
  - change ("+" ++ ?x)%string with (String "+" x). rewrite (words_sign "+" WPlus) by reflexivity. change ("" ++ ?x)%string with x. rewrite (okt_words t O) by (apply more_stop; exact F''). rewrite IH by exact F''. reflexivity.
Qed.
Lemma read_more_words : forall l neg t, okt t -> Forall okt l -> RD neg (bwt t ++ more_words l) = Some (qneg neg (out (Z.abs (fst (fst t))) (snd (fst t)) (snd t)) :: map outt l).
Proof.
  induction l as [|u l IH]; intros neg t O F.
  - unfold more_words. cbn [map List.concat]. rewrite app_nil_r. apply R0. apply O.
  - inversion F as [|? ? OU F']; subst. unfold more_words. cbn [map List.concat]. fold (more_words l). unfold signed, outt at 1. rewrite <- app_comm_cons. destruct (fst (fst u) <? 0).
    + unfold bwt at 1. rewrite R2 by apply O. rewrite (IH true u OU F'). reflexivity.
    + unfold bwt at 1. rewrite R1 by apply O. rewrite (IH false u OU F'). reflexivity.
Qed.
Definition read_with (s : string) : option (list qterm) :=
  match words None s with
  | Some (WMinus :: r) => RD true r
  | Some ts => RD false ts
  | None => None
  end.
Lemma read_full l : l <> [] -> Forall okt l -> read_with (sum_text (map full l)) = Some (map outt l).
Proof.
  intros NE F. destruct l as [|t l]; [congruence|]. inversion F as [|? ? O F']; subst. unfold read_with. cbn [map sum_text]. rewrite (full_eq t). unfold outt at 1. destruct (fst (fst t) <? 0).
  - rewrite app_s_assoc. change ("-" ++ ?x)%string with (String "-" x). rewrite (words_sign "-" WMinus) by reflexivity. rewrite (okt_words t O) by (apply more_stop; exact F'). rewrite words_more by exact F'.
    cbn [app_word cons_word]. apply read_more_words; auto.
  - change ("" ++ ?x)%string with x. rewrite (okt_words t O) by (apply more_stop; exact F'). rewrite words_more by exact F'. cbn [app_word].
    pose proof (BH (Z.abs (fst (fst t))) (snd (fst t)) (snd t)) as H. fold (bwt t) in H. pose proof (read_more_words l false t O F') as R.
    destruct (bwt t) as [|w r]; [contradiction|]. rewrite <- app_comm_cons in *. destruct w; try contradiction; exact R.
Qed.
End Sums.

(** * TeX *)
Definition nonzero_powers (l : list (string * Z)) : Prop := Forall (fun p => snd p <> 0) l.
Definition tex_powers (l : list (string * Z)) : Prop := tex_names l /\ nonzero_powers l.
Lemma up_down l : nonzero_powers l -> l <> [] -> up l <> [] \/ down l <> [].
Proof.
  destruct 1 as [|[x v] l N F]; [congruence|]. intros _. cbn [snd] in N. unfold up, down. cbn [filter snd]. destruct (0 <? v) eqn:E; [left; discriminate|].
  apply Z.ltb_ge in E. replace (v <? 0) with true by (symmetry; apply Z.ltb_lt; lia). right. discriminate.
Qed.
Definition tex_body (a b : Z) (l : list (string * Z)) : string := product_text "" (frac_tex a b) (monomial_tex l).
Definition tw_term (a b : Z) (l : list (string * Z)) : list word :=
  match l with [] => tw_frac a b | _ => (if (a =? 1) && (b =? 1) then [] else tw_frac a b) ++ tw_mono l end.
Lemma mono_tex_head l : nonzero_powers l -> l <> [] -> exists c s, monomial_tex l = String c s /\ (c = "{"%char \/ c = "\"%char).
Proof.
  intros N NE. pose proof (up_down l N NE) as H. unfold monomial_tex. fold (up l) (down l).
  destruct (up l) as [|p u]; destruct (down l) as [|q d]; [destruct H; congruence|..]; rewrite ?powers_tex_cons; eexists _, _; (split; [reflexivity|]); auto.
Qed.
Lemma frac_tex_one a b : 0 < b -> (frac_tex a b =? "1")%string = (a =? 1) && (b =? 1).
Proof.
  intros B. unfold frac_tex. destruct (b =? 1); [rewrite decimal_one, andb_true_r; reflexivity|]. rewrite andb_false_r. destruct (a <? 0); reflexivity.
Qed.
Lemma frac_tex_minus_one a b : 0 < b -> (frac_tex a b =? "-1")%string = (a =? -1) && (b =? 1).
Proof.
  intros B. unfold frac_tex. destruct (b =? 1); [rewrite decimal_minus_one, andb_true_r; reflexivity|]. rewrite andb_false_r. destruct (a <? 0); reflexivity.
Qed.
Lemma frac_tex_sign a b : frac_tex a b = ((if (a <? 0)%Z then "-" else "") ++ frac_tex (Z.abs a) b)%string.
Proof.
  unfold frac_tex. replace (Z.abs a <? 0) with false by (symmetry; apply Z.ltb_ge; lia). rewrite Z.abs_involutive. destruct (b =? 1); [|reflexivity].
  destruct (a <? 0) eqn:E; [apply Z.ltb_lt in E; rewrite (decimal_neg a E), Z.abs_neq by lia; reflexivity|]. apply Z.ltb_ge in E. rewrite Z.abs_eq by lia. reflexivity.
Qed.
(** A product begins with the sign of its number. *)
Lemma product_sign times (f : Z -> Z -> string) a b k :
  (forall a, (f a b =? "1")%string = (a =? 1) && (b =? 1)) -> (forall a, (f a b =? "-1")%string = (a =? -1) && (b =? 1)) ->
  f a b = ((if (a <? 0)%Z then "-" else "") ++ f (Z.abs a) b)%string ->
  product_text times (f a b) k = ((if (a <? 0)%Z then "-" else "") ++ product_text times (f (Z.abs a) b) k)%string.
Proof.
  intros O M S. unfold product_text. destruct (k =? "1")%string; [exact S|]. rewrite !O, !M. destruct (a <? 0) eqn:E.
  - apply Z.ltb_lt in E. replace (a =? 1) with false by (symmetry; apply Z.eqb_neq; lia). replace (Z.abs a =? -1) with false by (symmetry; apply Z.eqb_neq; lia).
    replace (Z.abs a =? 1) with (a =? -1) by (destruct (Z.eqb_spec a (-1)), (Z.eqb_spec (Z.abs a) 1); auto; lia). cbn [andb]. destruct ((a =? -1) && (b =? 1)); [reflexivity|].
    rewrite S at 1. rewrite app_s_assoc. reflexivity.
  - apply Z.ltb_ge in E. rewrite Z.abs_eq by exact E. reflexivity.
Qed.
Lemma tex_full a b l : 0 < b -> product_text "" (frac_tex a b) (monomial_tex l) = full tex_body ((a, b), l).
Proof.
  intros B. unfold full, tex_body. cbn [fst snd]. apply (product_sign "" frac_tex); [intros; apply frac_tex_one; exact B|intros; apply frac_tex_minus_one; exact B|apply frac_tex_sign].
Qed.
Lemma tex_body_words a b l : 0 <= a -> 0 < b -> tex_powers l -> wlexs (tex_body a b l) (tw_term a b l).
Proof.
  intros A B [N Z]. unfold tex_body, tw_term, product_text. destruct l as [|p l].
  - change (monomial_tex [] =? "1")%string with true. apply wlexs_frac_tex; auto.
  - assert (NE : p :: l <> []) by discriminate. destruct (mono_tex_head _ Z NE) as (c & s & E & HC). pose proof (wlexs_mono_tex _ N (up_down _ Z NE)) as W.
    replace (monomial_tex (p :: l) =? "1")%string with false by (rewrite E; destruct HC; subst c; reflexivity). rewrite frac_tex_one, frac_tex_minus_one by exact B.
    destruct ((a =? 1) && (b =? 1)); [apply wlex_s; exact W|]. replace (a =? -1) with false by (symmetry; apply Z.eqb_neq; lia). cbn [andb].
    intros r _. change ("" ++ ?x)%string with x. rewrite app_s_assoc. rewrite (wlexs_frac_tex a b A B).
    + rewrite W, app_word_app. reflexivity.
    + rewrite E. destruct HC; subst c; split; reflexivity.
Qed.
Lemma tex_head a b l : match tw_term a b l with [] | WMinus :: _ => False | _ => True end.
Proof.
  assert (F : match tw_frac a b with [] | WMinus :: _ => False | _ => True end) by (unfold tw_frac; destruct (b =? 1); exact Logic.I).
  unfold tw_term. destruct l as [|p l]; [exact F|]. destruct (_ && _); [|destruct (tw_frac a b) as [|[] ?]; try contradiction; exact Logic.I].
  cbn [app]. unfold tw_mono. destruct (up (p :: l)) as [|q u]; destruct (down (p :: l)); exact Logic.I.
Qed.
Definition tex_out (a b : Z) (l : list (string * Z)) : qterm := ((a, b), up l ++ down l).
Lemma tex_read a b l neg r : no_caret r -> tex_powers l -> tex_terms Outside neg None (tw_term a b l ++ r) = tex_terms Outside neg (Some (tex_out a b l)) r.
Proof.
  intros NC [N Z]. unfold tw_term, tex_out. destruct l as [|p l]; [apply read_frac_tex|]. assert (NE : p :: l <> []) by discriminate. pose proof (up_down _ Z NE) as U.
  destruct (Z.eqb_spec a 1) as [->|NA]; destruct (Z.eqb_spec b 1) as [->|NB]; cbn [andb]; [cbn [app]|rewrite <- app_assoc, read_frac_tex..]; apply read_mono_tex; auto.
Qed.
Lemma read_tex_printed l : l <> [] -> Forall (okt tex_powers) l ->
  read_tex (sum_text (map (fun t : qterm => product_text "" (frac_tex (fst (fst t)) (snd (fst t))) (monomial_tex (snd t))) l)) = Some (map (fun t : qterm => (fst t, up (snd t) ++ down (snd t))) l).
Proof.
  intros NE F. pose proof (read_full tex_body tw_term tex_powers tex_out (fun neg ts => tex_terms Outside neg None ts)) as R.
  specialize (R (fun a b l A B O => tex_body_words a b l A B O) tex_head).
  assert (E1 : map (fun t : qterm => product_text "" (frac_tex (fst (fst t)) (snd (fst t))) (monomial_tex (snd t))) l = map (full tex_body) l).
  { apply map_ext_in. intros [[a b] m] I. rewrite Forall_forall in F. apply tex_full. apply (F _ I). }
  assert (E2 : map (fun t : qterm => (fst t, up (snd t) ++ down (snd t))) l = map (outt tex_out) l).
  { apply map_ext. intros [[a b] m]. unfold outt, tex_out, qneg. cbn [fst snd]. destruct (a <? 0) eqn:E; [apply Z.ltb_lt in E; rewrite Z.abs_neq, Z.opp_involutive by lia; reflexivity|].
    apply Z.ltb_ge in E. rewrite Z.abs_eq by lia. reflexivity. }
  rewrite E1, E2. apply R; auto.
  - intros neg a b m O. rewrite <- (app_nil_r (tw_term a b m)). rewrite tex_read by (auto; exact Logic.I). reflexivity.
  - intros neg a b m r O. rewrite tex_read by (auto; exact Logic.I). reflexivity.
  - intros neg a b m r O. rewrite tex_read by (auto; exact Logic.I). reflexivity.
Qed.

(** * Plain text *)
Definition pw_z (n : Z) : list word := if n <? 0 then [WMinus; WNum (- n)] else [WNum n].
Definition pw_power (p : string * Z) : list word := if snd p =? 1 then [WName (fst p)] else WName (fst p) :: WStar :: WStar :: pw_z (snd p).
Fixpoint pw_mono (l : list (string * Z)) : list word :=
  match l with [] => [] | [p] => pw_power p | p :: l' => pw_power p ++ WStar :: pw_mono l' end.
Lemma wlexs_z n : wlexs (decimal n) (pw_z n).
Proof.
  unfold pw_z. destruct (n <? 0) eqn:E; [|apply Z.ltb_ge in E; apply wlexs_decimal; exact E]. apply Z.ltb_lt in E. rewrite decimal_neg by auto. apply wlexs_sign; try reflexivity. apply wlexs_decimal. lia.
Qed.
Lemma wlexs_power p : tex_name (fst p) -> wlexs (power_text p) (pw_power p).
Proof.
  intros N. unfold power_text, pw_power. destruct (snd p =? 1); [apply wlexs_name; exact N|].
  apply (wlexs_then_s (fst p) [WName (fst p)] "*" WStar (String "*" (decimal (snd p))) (WStar :: pw_z (snd p))); try reflexivity; [apply wlexs_name; exact N|].
  apply wlexs_sign; try reflexivity. apply wlexs_z.
Qed.
Lemma wlexs_mono : forall l p, tex_names (p :: l) -> wlexs (monomial_text (p :: l)) (pw_mono (p :: l)).
Proof.
  induction l as [|q l IH]; intros p N; inversion N; subst.
  - cbn [monomial_text map String.concat pw_mono]. apply wlexs_power; auto.
  - rewrite mono_cons. change (pw_mono (p :: q :: l)) with (pw_power p ++ WStar :: pw_mono (q :: l)). apply (wlexs_then_s _ _ "*" WStar); try reflexivity; [apply wlexs_power; auto|apply IH; auto].
Qed.
Definition plain_body (a b : Z) (l : list (string * Z)) : string := product_text "*" (frac_text a b) (monomial_text l).
Definition pw_term (a b : Z) (l : list (string * Z)) : list word :=
  match l with [] => pw_frac a b | _ => if (a =? 1) && (b =? 1) then pw_mono l else pw_frac a b ++ WStar :: pw_mono l end.
Lemma frac_text_one a b : 0 < b -> (frac_text a b =? "1")%string = (a =? 1) && (b =? 1).
Proof.
  intros B. unfold frac_text. destruct (b =? 1) eqn:E; [rewrite decimal_one, andb_true_r; reflexivity|]. rewrite andb_false_r. apply String.eqb_neq. intros X.
  pose proof (f_equal (fun s => words None (s ++ "")) X) as Y. cbn beta in Y. destruct (Z_lt_le_dec a 0) as [N|N].
  - rewrite (decimal_neg a N) in X. discriminate X.
  - rewrite app_s_nil in Y. change (decimal a ++ "/" ++ decimal b)%string with (decimal a ++ String "/" (decimal b))%string in Y.
    rewrite words_decimal, (words_sign "/" WSlash) in Y by (auto; split; reflexivity). rewrite <- (app_s_nil (decimal b)) in Y. rewrite words_decimal in Y by (try exact Logic.I; lia). discriminate Y.
Qed.
Lemma frac_text_sign a b : frac_text a b = ((if (a <? 0)%Z then "-" else "") ++ frac_text (Z.abs a) b)%string.
Proof.
  unfold frac_text. destruct (a <? 0) eqn:E; [apply Z.ltb_lt in E; rewrite (decimal_neg a E), Z.abs_neq by lia; destruct (b =? 1); reflexivity|]. apply Z.ltb_ge in E. rewrite Z.abs_eq by lia. reflexivity.
Qed.
Lemma frac_text_minus_one a b : 0 < b -> (frac_text a b =? "-1")%string = (a =? -1) && (b =? 1).
Proof.
  intros B. rewrite frac_text_sign. destruct (a <? 0) eqn:E.
  - change ("-" ++ ?x =? "-1")%string with (x =? "1")%string. rewrite frac_text_one by exact B. apply Z.ltb_lt in E. rewrite Z.abs_neq by lia. f_equal. destruct (Z.eqb_spec (- a) 1), (Z.eqb_spec a (-1)); auto; lia.
  - apply Z.ltb_ge in E. rewrite Z.abs_eq by exact E. replace (a =? -1) with false by (symmetry; apply Z.eqb_neq; lia). cbn [andb append]. apply String.eqb_neq. intros X.
    pose proof (wlexs_frac_text a b E B ""%string Logic.I) as Y. rewrite X in Y. unfold pw_frac in Y. destruct (b =? 1); discriminate Y.
Qed.
Lemma plain_full a b l : 0 < b -> product_text "*" (frac_text a b) (monomial_text l) = full plain_body ((a, b), l).
Proof.
  intros B. unfold full, plain_body. cbn [fst snd]. apply (product_sign "*" frac_text); [intros; apply frac_text_one; exact B|intros; apply frac_text_minus_one; exact B|apply frac_text_sign].
Qed.
Lemma name_not_one p s : tex_name (fst p) -> ((power_text p ++ s) =? "1")%string = false.
Proof.
  destruct p as [[|c x] v]; [contradiction|]. intros [N _]. unfold power_text. cbn [fst snd] in *. apply String.eqb_neq. intros X.
  assert (c = "1"%char) by (destruct (v =? 1); cbn [append] in X; injection X; auto). subst c. discriminate N.
Qed.
Lemma plain_body_words a b l : 0 <= a -> 0 < b -> tex_powers l -> wlexs (plain_body a b l) (pw_term a b l).
Proof.
  intros A B [N Z]. unfold plain_body, pw_term, product_text. destruct l as [|p l].
  - change (monomial_text [] =? "1")%string with true. apply wlexs_frac_text; auto.
  - pose proof (wlexs_mono l p N) as W. replace (monomial_text (p :: l) =? "1")%string with false.
    + rewrite frac_text_one, frac_text_minus_one by exact B. destruct ((a =? 1) && (b =? 1)); [exact W|]. replace (a =? -1) with false by (symmetry; apply Z.eqb_neq; lia). cbn [andb].
      apply (wlexs_then_s _ _ "*" WStar); try reflexivity; [apply wlexs_frac_text; auto|exact W].
    + inversion N; subst. symmetry. destruct l as [|q l]; [cbn; rewrite <- (app_s_nil (power_text p))|rewrite mono_cons]; apply name_not_one; auto.
Qed.
Lemma plain_head a b l : match pw_term a b l with [] | WMinus :: _ => False | _ => True end.
Proof.
  assert (F : match pw_frac a b with [] | WMinus :: _ => False | _ => True end) by (unfold pw_frac; destruct (b =? 1); exact Logic.I).
  unfold pw_term. destruct l as [|p l]; [exact F|]. destruct (_ && _); [|destruct (pw_frac a b) as [|[] ?]; try contradiction; exact Logic.I].
  assert (P : match pw_power p with [] | WMinus :: _ => False | _ => True end) by (unfold pw_power; destruct (snd p =? 1); exact Logic.I).
  destruct l as [|q l]; cbn [pw_mono]; [exact P|]. destruct (pw_power p) as [|[] ?]; try contradiction; exact Logic.I.
Qed.
Definition plain_out (a b : Z) (l : list (string * Z)) : qterm := ((a, b), l).
(** What may follow a factor: the end of the text, a plus or minus sign, or a star and a name. *)
Definition ends_factor (r : list word) : Prop := match r with [] | WPlus :: _ | WMinus :: _ | WStar :: WName _ :: _ => True | _ => False end.
Lemma read_power_plain neg t p r : ends_factor r -> plain_terms neg t (pw_power p ++ r) = follow plain_terms neg (fst t, snd t ++ [p]) r.
Proof.
  intros E. destruct t as [ab m]. destruct p as [x v]. unfold pw_power, pw_z. cbn [fst snd]. destruct (v =? 1) eqn:V.
  - apply Z.eqb_eq in V. subst v. destruct r as [|[] r]; try contradiction; try reflexivity. destruct r as [|[] r]; try contradiction; reflexivity.
  - destruct (v <? 0); cbn [app plain_terms qpow]; rewrite ?Z.opp_involutive; reflexivity.
Qed.
Lemma mono_name p l : exists x r, pw_mono (p :: l) = WName x :: r.
Proof. unfold pw_mono, pw_power. destruct l; destruct (snd p =? 1); eexists _, _; reflexivity. Qed.
Lemma read_mono_plain neg r : match r with [] | WPlus :: _ | WMinus :: _ => True | _ => False end -> forall l t p, plain_terms neg t (pw_mono (p :: l) ++ r) = follow plain_terms neg (fst t, snd t ++ p :: l) r.
Proof.
  intros E. assert (E' : ends_factor r) by (destruct r as [|[] ?]; try contradiction; exact Logic.I). induction l as [|q l IH]; intros t p.
  - cbn [pw_mono]. apply read_power_plain. exact E'.
  - change (pw_mono (p :: q :: l)) with (pw_power p ++ WStar :: pw_mono (q :: l)). rewrite <- app_assoc, <- app_comm_cons. rewrite read_power_plain.
    + cbn [follow]. rewrite IH. cbn [fst snd]. rewrite <- app_assoc. reflexivity.
    + destruct (mono_name q l) as (x & m & ->). exact Logic.I.
Qed.
Lemma read_frac_plain a b neg r : ends_factor r -> plain_terms neg qone (pw_frac a b ++ r) = follow plain_terms neg ((a, b), []) r.
Proof.
  intros E. unfold pw_frac. destruct (Z.eqb_spec b 1) as [->|N].
  - cbn [app]. replace (a, 1, []) with (qnum false a qone) by (unfold qone, qnum; rewrite Z.mul_1_l; reflexivity). destruct r as [|[] r]; try contradiction; reflexivity.
  - cbn [app plain_terms]. unfold qone, qnum. rewrite !Z.mul_1_l. reflexivity.
Qed.
Lemma plain_read a b l neg r : match r with [] | WPlus :: _ | WMinus :: _ => True | _ => False end -> plain_terms neg qone (pw_term a b l ++ r) = follow plain_terms neg (plain_out a b l) r.
Proof.
  intros E. assert (E' : ends_factor r) by (destruct r as [|[] ?]; try contradiction; exact Logic.I). unfold pw_term, plain_out. destruct l as [|p l]; [apply read_frac_plain; exact E'|].
  destruct (Z.eqb_spec a 1) as [->|NA]; destruct (Z.eqb_spec b 1) as [->|NB]; cbn [andb]; [apply read_mono_plain; exact E|..]; rewrite <- app_assoc, <- app_comm_cons;
    (rewrite read_frac_plain; [|destruct (mono_name p l) as (x & m & ->); exact Logic.I]); cbn [follow]; apply read_mono_plain; exact E.
Qed.
Lemma read_plain_printed l : l <> [] -> Forall (okt tex_powers) l ->
  read_plain (sum_text (map (fun t : qterm => product_text "*" (frac_text (fst (fst t)) (snd (fst t))) (monomial_text (snd t))) l)) = Some l.
Proof.
  intros NE F. pose proof (read_full plain_body pw_term tex_powers plain_out (fun neg ts => plain_terms neg qone ts)) as R.
  specialize (R (fun a b l A B O => plain_body_words a b l A B O) plain_head).
  assert (E1 : map (fun t : qterm => product_text "*" (frac_text (fst (fst t)) (snd (fst t))) (monomial_text (snd t))) l = map (full plain_body) l).
  { apply map_ext_in. intros [[a b] m] I. rewrite Forall_forall in F. apply plain_full. apply (F _ I). }
  assert (E2 : l = map (outt plain_out) l).
  { rewrite <- (map_id l) at 1. apply map_ext. intros [[a b] m]. unfold outt, plain_out, qneg. cbn [fst snd]. destruct (a <? 0) eqn:E; [apply Z.ltb_lt in E; rewrite Z.abs_neq, Z.opp_involutive by lia; reflexivity|].
    apply Z.ltb_ge in E. rewrite Z.abs_eq by lia. reflexivity. }
  rewrite E1. rewrite E2 at 2. apply R; auto.
  - intros neg a b m O. rewrite <- (app_nil_r (pw_term a b m)). rewrite plain_read by exact Logic.I. reflexivity.
  - intros neg a b m r O. rewrite plain_read by exact Logic.I. reflexivity.
  - intros neg a b m r O. rewrite plain_read by exact Logic.I. reflexivity.
Qed.
