(** The readers of TexSpec read printed sums of products. *)
From Coq Require Import ZArith List Bool String Ascii DecimalString DecimalPos DecimalFacts Permutation Lia.
From Verif Require Import Base SymModel PrintModel PrintSpec PrintProofs PrintProofs2 PrintProofs3 TexSpec.
Import ListNotations.
Open Scope Z_scope.
Local Notation len := List.length.

(** * Words *)
Definition app_word (l : list word) (r : option (list word)) : option (list word) := match r with Some m => Some (l ++ m) | None => None end.
Lemma app_word_cons t l r : app_word (t :: l) r = cons_word t (app_word l r).
Proof. destruct r; reflexivity. Qed.
Lemma app_word_app l m r : app_word (l ++ m) r = app_word l (app_word m r).
Proof. destruct r; cbn; [rewrite app_assoc|]; reflexivity. Qed.
Lemma app_word_nil r : app_word [] r = r.
Proof. destruct r; reflexivity. Qed.

Lemma words_stop t s : stop s -> words (Some t) s = cons_word t (words None s).
Proof.
  destruct s as [|c s]; intros ST; [reflexivity|]. destruct ST as [A B]. cbn [words]. rewrite A, B.
  destruct (Ascii.eqb c "\"); [reflexivity|]. destruct (sign_word c); reflexivity.
Qed.
Lemma words_uint : forall u a s, stop s -> words (Some (WNum a)) (NilEmpty.string_of_uint u ++ s) = cons_word (WNum (uacc a u)) (words None s).
Proof.
  induction u; intros a s ST; cbn [NilEmpty.string_of_uint append uacc]; [apply words_stop; auto|..]; rewrite <- IHu by auto; reflexivity.
Qed.
Lemma words_uint0 u s : stop s -> words None (NilZero.string_of_uint u ++ s) = cons_word (WNum (uacc 0 u)) (words None s).
Proof.
  intros ST. destruct u; cbn [NilZero.string_of_uint NilEmpty.string_of_uint append uacc]; [rewrite <- words_stop by auto; reflexivity|..];
    rewrite <- words_uint by auto; reflexivity.
Qed.
Lemma words_decimal n s : 0 <= n -> stop s -> words None (decimal n ++ s) = cons_word (WNum n) (words None s).
Proof.
  intros N ST. destruct n as [|p|p]; [|..|lia].
  - change (decimal 0) with (NilZero.string_of_uint (Decimal.D0 Decimal.Nil)). rewrite words_uint0 by auto. reflexivity.
  - rewrite decimal_pos, words_uint0 by auto. rewrite <- uacc_of. rewrite Unsigned.of_to. reflexivity.
Qed.
Lemma words_name_cont : forall x y s, all_alnum x -> stop s -> words (Some (WName y)) (x ++ s) = cons_word (WName (y ++ x)) (words None s).
Proof.
  induction x as [|c x IH]; intros y s A ST; [cbn [append]; rewrite app_s_nil; apply words_stop; auto|].
  destruct A as [A A']. cbn [append words]. destruct (is_digit c).
  - rewrite IH, app_s_assoc by auto. reflexivity.
  - cbn in A. rewrite A. rewrite IH, app_s_assoc by auto. reflexivity.
Qed.
Lemma words_name x s : tex_name x -> stop s -> words None (x ++ s) = cons_word (WName x) (words None s).
Proof.
  destruct x as [|c x]; [contradiction|]. intros [L A] ST. cbn [append words]. destruct (is_letter c) eqn:E.
  - rewrite (letter_not_digit c E). rewrite words_name_cont by auto. reflexivity.
  - cbn [orb] in L. apply Ascii.eqb_eq in L. subst c. change (is_digit "\") with false. cbn [Ascii.eqb Bool.eqb finish]. rewrite words_name_cont by auto. reflexivity.
Qed.
Lemma words_sign c t s : sign_word c = Some t -> is_digit c = false -> is_letter c = false -> Ascii.eqb c "\" = false -> words None (String c s) = cons_word t (words None s).
Proof. intros E D L B. cbn [words]. rewrite D, L, B, E. reflexivity. Qed.
Lemma stop_char c s : is_digit c = false -> is_letter c = false -> stop (String c s).
Proof. intros; split; auto. Qed.

(** [u] has the words [l], whatever follows. *)
Definition wlex (u : string) (l : list word) : Prop := forall s, words None (u ++ s) = app_word l (words None s).
(** The same if what follows is not a letter or digit. *)
Definition wlexs (u : string) (l : list word) : Prop := forall s, stop s -> words None (u ++ s) = app_word l (words None s).
Lemma wlex_nil : wlex "" [].
Proof. intros s. rewrite app_word_nil. reflexivity. Qed.
Lemma wlex_app u l v m : wlex u l -> wlex v m -> wlex (u ++ v) (l ++ m).
Proof. intros A B s. rewrite app_s_assoc, A, B, app_word_app. reflexivity. Qed.
Lemma wlex_s u l : wlex u l -> wlexs u l.
Proof. intros A s _. apply A. Qed.
Lemma wlexs_app u l v m : wlex u l -> wlexs v m -> wlexs (u ++ v) (l ++ m).
Proof. intros A B s S. rewrite app_s_assoc, A, B, app_word_app by auto. reflexivity. Qed.
Lemma wlexs_then u l c t v m : wlexs u l -> sign_word c = Some t -> is_digit c = false -> is_letter c = false -> Ascii.eqb c "\" = false -> wlex v m ->
  wlex (u ++ String c v) (l ++ t :: m).
Proof.
  intros A E D L B V s. rewrite app_s_assoc. rewrite A by (split; auto). cbn [append]. rewrite (words_sign c t) by auto. rewrite V, app_word_app, app_word_cons. reflexivity.
Qed.
Lemma wlexs_then_s u l c t v m : wlexs u l -> sign_word c = Some t -> is_digit c = false -> is_letter c = false -> Ascii.eqb c "\" = false -> wlexs v m ->
  wlexs (u ++ String c v) (l ++ t :: m).
Proof.
  intros A E D L B V s S. rewrite app_s_assoc. rewrite A by (split; auto). cbn [append]. rewrite (words_sign c t) by auto. rewrite V, app_word_app, app_word_cons by auto. reflexivity.
Qed.
Lemma wlex_sign c t v m : sign_word c = Some t -> is_digit c = false -> is_letter c = false -> Ascii.eqb c "\" = false -> wlex v m -> wlex (String c v) (t :: m).
Proof. intros E D L B V s. cbn [append]. rewrite (words_sign c t) by auto. rewrite V, app_word_cons. reflexivity. Qed.
Lemma wlexs_sign c t v m : sign_word c = Some t -> is_digit c = false -> is_letter c = false -> Ascii.eqb c "\" = false -> wlexs v m -> wlexs (String c v) (t :: m).
Proof. intros E D L B V s S. cbn [append]. rewrite (words_sign c t) by auto. rewrite V, app_word_cons by auto. reflexivity. Qed.
Lemma wlexs_decimal n : 0 <= n -> wlexs (decimal n) [WNum n].
Proof. intros N s S. rewrite words_decimal by auto. rewrite app_word_cons, app_word_nil. reflexivity. Qed.
Lemma wlexs_name x : tex_name x -> wlexs x [WName x].
Proof. intros N s S. rewrite words_name by auto. rewrite app_word_cons, app_word_nil. reflexivity. Qed.

(** * Numbers *)
(** A fraction in plain text and in TeX. *)
Definition frac_text (a b : Z) : string := (if (b =? 1)%Z then decimal a else decimal a ++ "/" ++ decimal b)%string.
Definition frac_tex (a b : Z) : string :=
  (if (b =? 1)%Z then decimal a else (if (a <? 0)%Z then "-" else "") ++ "\frac{" ++ decimal (Z.abs a) ++ "}{" ++ decimal b ++ "}")%string.
Definition tw_frac (a b : Z) : list word :=
  if b =? 1 then [WNum a] else [WName "\frac"; WOpen; WNum a; WClose; WOpen; WNum b; WClose].
Definition pw_frac (a b : Z) : list word := if b =? 1 then [WNum a] else [WNum a; WSlash; WNum b].

Lemma frac_head_words : wlex "\frac{" [WName "\frac"; WOpen].
Proof. intros s. change ("\frac{" ++ s)%string with ("\frac" ++ String "{" s)%string. rewrite words_name by (repeat split). rewrite !app_word_cons, app_word_nil. reflexivity. Qed.
Lemma wlexs_frac_tex a b : 0 <= a -> 0 < b -> wlexs (frac_tex a b) (tw_frac a b).
Proof.
  intros A B. unfold frac_tex, tw_frac. destruct (b =? 1); [apply wlexs_decimal; exact A|]. replace (a <? 0) with false by (symmetry; apply Z.ltb_ge; exact A). rewrite Z.abs_eq by exact A.
  apply wlex_s. change ("" ++ ?x)%string with x. apply (wlex_app _ [WName "\frac"; WOpen] _ [WNum a; WClose; WOpen; WNum b; WClose]); [exact frac_head_words|].
  apply (wlexs_then (decimal a) [WNum a] "}" WClose (String "{" (decimal b ++ "}")) [WOpen; WNum b; WClose]); try reflexivity; [apply wlexs_decimal; exact A|].
  apply wlex_sign; try reflexivity. apply (wlexs_then (decimal b) [WNum b] "}" WClose "" []); try reflexivity; [apply wlexs_decimal; lia|apply wlex_nil].
Qed.
Lemma wlexs_frac_text a b : 0 <= a -> 0 < b -> wlexs (frac_text a b) (pw_frac a b).
Proof.
  intros A B. unfold frac_text, pw_frac. destruct (b =? 1); [apply wlexs_decimal; exact A|].
  apply (wlexs_then_s (decimal a) [WNum a] "/" WSlash (decimal b) [WNum b]); try reflexivity; apply wlexs_decimal; lia.
Qed.

(** * Powers *)
Definition tw_power (p : string * Z) : list word :=
  WOpen :: WName (fst p) :: WClose :: (if Z.abs (snd p) =? 1 then [] else [WCaret; WOpen; WNum (Z.abs (snd p)); WClose]).
Definition tw_powers (l : list (string * Z)) : list word := flat_map tw_power l.
Definition tex_names (l : list (string * Z)) : Prop := Forall (fun p => tex_name (fst p)) l.
Lemma wlex_power_tex p : tex_name (fst p) -> wlex (power_tex p) (tw_power p).
Proof.
  intros N. unfold power_tex, tw_power. change ("{" ++ ?x)%string with (String "{" x). apply wlex_sign; try reflexivity.
  change ("}" ++ ?x)%string with (String "}" x). apply (wlexs_then (fst p) [WName (fst p)] "}" WClose); try reflexivity; [apply wlexs_name; exact N|].
  destruct (Z.abs (snd p) =? 1); [apply wlex_nil|]. apply (wlex_sign "^" WCaret (String "{" (decimal (Z.abs (snd p)) ++ "}"))); try reflexivity.
  apply wlex_sign; try reflexivity. apply (wlexs_then _ [WNum (Z.abs (snd p))] "}" WClose "" []); try reflexivity; [apply wlexs_decimal; lia|apply wlex_nil].
Qed.
Lemma wlex_powers_tex l : tex_names l -> wlex (powers_tex l) (tw_powers l).
Proof.
  induction 1; [apply wlex_nil|]. rewrite powers_tex_cons. apply wlex_app; [apply wlex_power_tex|]; auto.
Qed.
Definition up (l : list (string * Z)) := filter (fun p => 0 <? snd p) l.
Definition down (l : list (string * Z)) := filter (fun p => snd p <? 0) l.
Definition tw_mono (l : list (string * Z)) : list word :=
  match up l, down l with
  | [], [] => [WNum 1]
  | u, [] => tw_powers u
  | [], d => WName "\frac" :: WOpen :: WNum 1 :: WClose :: WOpen :: tw_powers d ++ [WClose]
  | u, d => WName "\frac" :: WOpen :: tw_powers u ++ WClose :: WOpen :: tw_powers d ++ [WClose]
  end.
Lemma names_filter (f : string * Z -> bool) l : tex_names l -> tex_names (filter f l).
Proof. unfold tex_names. rewrite !Forall_forall. intros H p I. apply filter_In in I as [I _]. auto. Qed.
Lemma wlex_end l m : wlex l m -> wlex (l ++ "}") (m ++ [WClose]).
Proof. intros H. apply wlex_app; auto. apply wlex_sign; try reflexivity. apply wlex_nil. Qed.
Lemma wlexs_mono_tex l : tex_names l -> up l <> [] \/ down l <> [] -> wlex (monomial_tex l) (tw_mono l).
Proof.
  intros N NE. pose proof (wlex_powers_tex _ (names_filter (fun p => 0 <? snd p) l N)) as U. pose proof (wlex_powers_tex _ (names_filter (fun p => snd p <? 0) l N)) as D.
  unfold monomial_tex, tw_mono. fold (up l) (down l) in *. destruct (up l) as [|p u]; destruct (down l) as [|q d]; [destruct NE; congruence|..].
  - change ("\frac{1}{" ++ ?x)%string with ("\frac{" ++ "1}{" ++ x)%string. apply (wlex_app _ [WName "\frac"; WOpen]); [exact frac_head_words|].
    apply (wlex_app "1}{" [WNum 1; WClose; WOpen]); [|apply wlex_end; exact D]. apply (wlexs_then (decimal 1) [WNum 1] "}" WClose "{" [WOpen]); try reflexivity; [apply wlexs_decimal; lia|].
    apply wlex_sign; try reflexivity. apply wlex_nil.
  - exact U.
  - apply (wlex_app _ [WName "\frac"; WOpen]); [exact frac_head_words|]. apply wlex_app; [exact U|].
    apply (wlex_app "}{" [WClose; WOpen]); [|apply wlex_end; exact D]. do 2 (apply wlex_sign; try reflexivity). apply wlex_nil.
Qed.

(** * Reading TeX *)
Definition no_caret (r : list word) : Prop := match r with WCaret :: _ => False | _ => True end.
Lemma read_power_tex p neg cur q r : p <> Between -> no_caret r ->
  tex_terms p neg cur (tw_power q ++ r) = tex_terms (seen p) neg (Some (qpow (is_below p) (fst q) (Z.abs (snd q)) (so_far cur))) r.
Proof.
  intros B NC. unfold tw_power. destruct (Z.abs (snd q) =? 1) eqn:E.
  - apply Z.eqb_eq in E. rewrite E. destruct p; try congruence; destruct r as [|[] r]; try contradiction; reflexivity.
  - destruct p; try congruence; reflexivity.
Qed.
Lemma seen_idem p : seen (seen p) = seen p.
Proof. destruct p; reflexivity. Qed.
Lemma seen_between p : p <> Between -> seen p <> Between.
Proof. destruct p; intros H; (discriminate || (exfalso; apply H; reflexivity)). Qed.
Lemma seen_below p : is_below (seen p) = is_below p.
Proof. destruct p; reflexivity. Qed.
(** The powers as they are read above and below a fraction bar. *)
Definition read_as (b : bool) (l : list (string * Z)) : list (string * Z) := map (fun q => (fst q, if b then - Z.abs (snd q) else Z.abs (snd q))) l.
Lemma read_powers_tex r : no_caret r -> forall l p neg ab m q, p <> Between ->
  tex_terms p neg (Some (ab, m)) (tw_powers (q :: l) ++ r) = tex_terms (seen p) neg (Some (ab, m ++ read_as (is_below p) (q :: l))) r.
Proof.
  intros NC. induction l as [|q' l IH]; intros p neg ab m q B.
  - cbn [tw_powers flat_map]. rewrite List.app_nil_r. rewrite read_power_tex by auto. reflexivity.
  - change (tw_powers (q :: q' :: l)) with (tw_power q ++ tw_powers (q' :: l)). rewrite <- app_assoc. rewrite read_power_tex by (auto; exact Logic.I). cbn [so_far qpow].
    rewrite IH by (apply seen_between; exact B). rewrite seen_idem, seen_below. rewrite <- app_assoc. reflexivity.
Qed.
Lemma read_up l : read_as false (up l) = up l.
Proof.
  unfold read_as. rewrite <- map_id. apply map_ext_in. intros [x v] I. apply filter_In in I as [_ I]. cbn [fst snd] in *. apply Z.ltb_lt in I. f_equal. lia.
Qed.
Lemma read_down l : read_as true (down l) = down l.
Proof.
  unfold read_as. rewrite <- map_id. apply map_ext_in. intros [x v] I. apply filter_In in I as [_ I]. cbn [fst snd] in *. apply Z.ltb_lt in I. f_equal. lia.
Qed.
Lemma powers_none neg q l r : no_caret r -> tex_terms Outside neg None (tw_powers (q :: l) ++ r) = tex_terms Outside neg (Some qone) (tw_powers (q :: l) ++ r).
Proof.
  intros NC. assert (N : no_caret (tw_powers l ++ r)) by (destruct l; [exact NC|exact Logic.I]). cbn [tw_powers flat_map]. fold (tw_powers l). rewrite <- app_assoc.
  rewrite !read_power_tex by (auto; discriminate). reflexivity.
Qed.
Lemma read_mono_tex l neg cur r : no_caret r -> up l <> [] \/ down l <> [] ->
  tex_terms Outside neg cur (tw_mono l ++ r) = tex_terms Outside neg (Some (fst (so_far cur), snd (so_far cur) ++ up l ++ down l)) r.
Proof.
  intros NC NE. assert (SF : forall c : option qterm, so_far c = (fst (so_far c), snd (so_far c))) by (intros c; destruct (so_far c); reflexivity). unfold tw_mono. pose proof (read_up l) as RU. pose proof (read_down l) as RD. destruct (up l) as [|p u]; destruct (down l) as [|q d]; [destruct NE; congruence|..].
  - rewrite <- !app_comm_cons. cbn [tex_terms String.eqb Ascii.eqb Bool.eqb seen is_below qnum].
    destruct (so_far cur) as [[a b] m]. cbn [so_far fst snd]. cbn [qnum]. rewrite Z.mul_1_r. rewrite <- app_assoc.
    rewrite read_powers_tex by (auto; discriminate || exact Logic.I). cbn [seen is_below app tex_terms]. rewrite RD. reflexivity.
  - replace (tex_terms Outside neg cur (tw_powers (p :: u) ++ r)) with (tex_terms Outside neg (Some (fst (so_far cur), snd (so_far cur))) (tw_powers (p :: u) ++ r)).
    + rewrite read_powers_tex by (auto; discriminate). cbn [seen is_below]. rewrite RU, List.app_nil_r. reflexivity.
    + rewrite <- SF. destruct cur as [t|]; [reflexivity|]. symmetry. apply powers_none. exact NC.
  - rewrite <- !app_comm_cons. cbn [tex_terms String.eqb Ascii.eqb Bool.eqb]. rewrite (SF cur) at 1. rewrite <- app_assoc. rewrite read_powers_tex by (auto; discriminate || exact Logic.I).
    cbn [seen is_below app tex_terms]. rewrite <- app_assoc. rewrite read_powers_tex by (auto; discriminate || exact Logic.I). cbn [seen is_below app tex_terms]. rewrite RU, RD, <- app_assoc. reflexivity.
Qed.
Lemma read_frac_tex a b neg r : tex_terms Outside neg None (tw_frac a b ++ r) = tex_terms Outside neg (Some ((a, b), [])) r.
Proof.
  unfold tw_frac. destruct (Z.eqb_spec b 1) as [->|N]; cbn [app tex_terms String.eqb Ascii.eqb Bool.eqb seen is_below so_far qone qnum]; [|]; destruct a; try reflexivity; rewrite ?Z.mul_1_l; reflexivity.
Qed.
