(** Property C70: the printed text and the TeX of a power series show its truncation. *)
From Coq Require Import ZArith List Bool String Ascii Arith Lia DecimalString.
From Verif Require Import Base KpackModel KpackSpec KpackProofs P_Kpack SymModel SymSpec PMonModel PMonSpec DPMModel DPMSpec KeyOps KeyInst
  SeriesModel SeriesModel2 SeriesSpec SeriesProofs CfInst P_Series2 PSModel PrintModel PrintSpec PrintProofs PrintProofs2 PrintProofs3 P_Print P_Print2 PolyModel P_Poly2 PSSpec P_PS4.
Import ListNotations.
Open Scope Z_scope.
Open Scope res_scope.
Local Notation len := List.length.

(** * Cutting a text at the end of a word *)
Fixpoint allc (P : ascii -> bool) (s : string) : Prop := match s with EmptyString => True | String c s' => P c = true /\ allc P s' end.
Definition stops (P : ascii -> bool) (s : string) : Prop := match s with EmptyString => True | String c _ => P c = false end.
Lemma cut P a : forall b r r', allc P a -> allc P b -> stops P r -> stops P r' -> (a ++ r = b ++ r')%string -> a = b /\ r = r'.
Proof.
  induction a as [|c a IH]; intros [|d b] r r' A B R R' H; cbn in *; auto.
  - subst r. cbn in R. destruct B as [B _]. congruence.
  - subst r'. cbn in R'. destruct A as [A _]. congruence.
  - injection H as <- H. destruct (IH b r r') as [-> ->]; tauto.
Qed.
Lemma app_cancel (a r r' : string) : (a ++ r = a ++ r')%string -> r = r'.
Proof. induction a as [|c a IH]; cbn; [auto|]. intros H. injection H as H. auto. Qed.
Lemma app_assoc_s (a b c : string) : ((a ++ b) ++ c = a ++ b ++ c)%string.
Proof. induction a as [|d a IH]; cbn; [reflexivity|]. rewrite IH. reflexivity. Qed.

Definition num_char (c : ascii) : bool := is_digit c || Ascii.eqb c "-".
Definition name_char (c : ascii) : bool := is_digit c || is_letter c.
Lemma num_uint u : allc num_char (NilEmpty.string_of_uint u).
Proof. induction u; cbn; auto. Qed.
Lemma num_decimal n : allc num_char (z_string n).
Proof.
  assert (A : forall u, allc num_char (NilZero.string_of_uint u)). { intros u. destruct u; [cbn; auto|..]; apply num_uint. }
  unfold z_string, NilZero.string_of_int. destruct (Z.to_int n); [apply A|]. cbn. split; [reflexivity|apply A].
Qed.
Lemma decimal_inj a b : z_string a = z_string b -> a = b.
Proof.
  change (decimal a = decimal b -> a = b). intros H.
  assert (P : forall a b, 0 <= a -> 0 <= b -> decimal a = decimal b -> a = b).
  { clear. intros a b A B H. pose proof (lex_decimal a ""%string A Logic.I) as LA. pose proof (lex_decimal b ""%string B Logic.I) as LB.
    rewrite H in LA. rewrite LA in LB. cbn in LB. congruence. }
  assert (Q : forall a b, a < 0 -> 0 <= b -> decimal a <> decimal b).
  { clear. intros a b A B H. pose proof (lex_decimal b ""%string B Logic.I) as LB. rewrite <- H, (decimal_neg a A) in LB. cbn in LB. destruct (lex None _); discriminate. }
  destruct (Z_lt_le_dec a 0) as [A|A], (Z_lt_le_dec b 0) as [B|B].
  - rewrite (decimal_neg a A), (decimal_neg b B) in H. injection H as H. apply P in H; lia.
  - exfalso. exact (Q a b A B H).
  - exfalso. exact (Q b a B A (eq_sym H)).
  - apply P; auto.
Qed.
Lemma cut_num a b r r' : stops num_char r -> stops num_char r' -> (z_string a ++ r = z_string b ++ r')%string -> a = b /\ r = r'.
Proof. intros R R' H. apply (cut num_char) in H; auto using num_decimal. destruct H as [H ->]. split; [apply decimal_inj; exact H|reflexivity]. Qed.
Lemma ident_name s : identifier s -> allc name_char s.
Proof.
  assert (A : forall s, all_alnum s -> allc name_char s) by (induction s0 as [|c s0 IH]; cbn; [auto|]; intros [? ?]; auto).
  destruct s as [|c s]; cbn; [contradiction|]. intros [L R]. unfold name_char. rewrite L, orb_true_r. auto.
Qed.
Lemma cut_name x y r r' : identifier x -> identifier y -> stops name_char r -> stops name_char r' -> (x ++ r = y ++ r')%string -> x = y /\ r = r'.
Proof. intros X Y. apply (cut name_char); apply ident_name; auto. Qed.
Lemma ident_head x r : identifier x -> ~ stops name_char (x ++ r).
Proof. destruct x as [|c x]; cbn; [auto|]. intros [L _]. unfold name_char. rewrite L, orb_true_r. discriminate. Qed.

Lemma items_inj ss : forall ss' r r', Forall identifier ss -> Forall identifier ss' -> (ss_items ss ++ "}" ++ r = ss_items ss' ++ "}" ++ r')%string -> ss = ss' /\ r = r'.
Proof.
  induction ss as [|x ss IH]; intros [|y ss'] r r' F F' H.
  - cbn in H. injection H as H. auto.
  - exfalso. cbn in H. destruct ss'; cbn in H; discriminate H.
  - exfalso. cbn in H. destruct ss; cbn in H; discriminate H.
  - inversion F as [|? ? X FX]; inversion F' as [|? ? Y FY]; subst. clear F F'.
    destruct ss as [|z ss], ss' as [|z' ss'].
    + cbn [ss_items] in H. rewrite !app_assoc_s in H. cbn [append] in H. injection H as H. apply cut_name in H; auto; try reflexivity. destruct H as [-> H]. injection H as ->. auto.
    + exfalso. cbn [ss_items] in H. rewrite !app_assoc_s in H. cbn [append] in H. injection H as H. apply cut_name in H; auto; try reflexivity. destruct H as [_ H]. discriminate H.
    + exfalso. cbn [ss_items] in H. rewrite !app_assoc_s in H. cbn [append] in H. injection H as H. apply cut_name in H; auto; try reflexivity. destruct H as [_ H]. discriminate H.
    + change (ss_items (x :: z :: ss)) with ("'" ++ x ++ "'" ++ ", " ++ ss_items (z :: ss))%string in H. change (ss_items (y :: z' :: ss')) with ("'" ++ y ++ "'" ++ ", " ++ ss_items (z' :: ss'))%string in H.
      rewrite !app_assoc_s in H. cbn [append] in H. apply (app_cancel "'") in H. apply cut_name in H; auto; try reflexivity. destruct H as [-> H]. apply (app_cancel "', ") in H.
      destruct (IH (z' :: ss') r r' FX FY H) as [-> ->]. auto.
Qed.
Lemma ss_string_inj ss ss' r r' : Forall identifier ss -> Forall identifier ss' -> (ss_string ss ++ r = ss_string ss' ++ r')%string -> ss = ss' /\ r = r'.
Proof. intros F F' H. unfold ss_string in H. rewrite !app_assoc_s in H. apply (app_cancel "{") in H. revert H. apply items_inj; auto. Qed.

(** The symbols of a partial truncation are identifiers. *)
Definition trunc_idents (t : trunc_t) : Prop := match t with partial_truncation _ ss => Forall identifier ss | _ => True end.
Lemma tag_text_inj t t' r r' : trunc_idents t -> trunc_idents t' -> (ps_tag_text t ++ nl ++ r = ps_tag_text t' ++ nl ++ r')%string -> t = t' /\ r = r'.
Proof.
  intros I I' H. unfold ps_tag_text in H. rewrite !app_assoc_s in H. apply (app_cancel "Series type: power series"), (app_cancel nl) in H.
  destruct t as [|d|d ss], t' as [|d'|d' ss']; cbn [trunc_idents] in I, I'; rewrite ?app_assoc_s in H; try (exfalso; discriminate H).
  - apply (app_cancel "Truncation: none"), (app_cancel nl) in H. auto.
  - apply (app_cancel "Truncation degree: ") in H. apply cut_num in H; try reflexivity. destruct H as [-> H]. apply (app_cancel nl) in H. auto.
  - apply (app_cancel "Partial truncation degree: ") in H. apply cut_num in H; try reflexivity. destruct H as [-> H]. apply (app_cancel ", ") in H.
    apply ss_string_inj in H; auto. destruct H as [-> H]. apply (app_cancel nl) in H. auto.
Qed.

Lemma tex_symbols_cons x y ss : tex_symbols (x :: y :: ss) = (x ++ ", " ++ tex_symbols (y :: ss))%string. Proof. reflexivity. Qed.
Lemma tex_symbols_inj ss : forall ss', Forall identifier ss -> Forall identifier ss' -> (tex_symbols ss ++ " \right)" = tex_symbols ss' ++ " \right)")%string -> ss = ss'.
Proof.
  assert (N : forall x ss r, identifier x -> ~ stops name_char (tex_symbols (x :: ss) ++ r)).
  { intros x [|y l] r X; [apply ident_head; exact X|]. rewrite tex_symbols_cons, app_assoc_s. apply ident_head. exact X. }
  induction ss as [|x ss IH]; intros [|y ss'] F F' H; auto.
  - exfalso. inversion F'; subst. apply (N y ss' " \right)"%string); auto. rewrite <- H. reflexivity.
  - exfalso. inversion F; subst. apply (N x ss " \right)"%string); auto. rewrite H. reflexivity.
  - inversion F as [|? ? X FX]; inversion F' as [|? ? Y FY]; subst. clear F F'. destruct ss as [|z ss], ss' as [|z' ss'].
    + cbn [tex_symbols] in H. apply cut_name in H; auto; try reflexivity. destruct H as [-> _]. reflexivity.
    + exfalso. rewrite tex_symbols_cons in H. cbn [tex_symbols] in H. rewrite !app_assoc_s in H. apply cut_name in H; auto; try reflexivity. destruct H as [_ H]. discriminate H.
    + exfalso. rewrite tex_symbols_cons in H. cbn [tex_symbols] in H. rewrite !app_assoc_s in H. apply cut_name in H; auto; try reflexivity. destruct H as [_ H]. discriminate H.
    + rewrite !tex_symbols_cons, !app_assoc_s in H. apply cut_name in H; auto; try reflexivity. destruct H as [-> H]. apply (app_cancel ", ") in H. rewrite (IH (z' :: ss') FX FY H). reflexivity.
Qed.

Section Text.
Context {K C : Type} (ct : C -> res string) (kt : K -> symbol_set -> res string) (kn cn : string) (rank : Z).
Notation ps := (series K C trunc_t).
Lemma text_split (x y : ps) txt : trunc_idents (s_tag x) -> trunc_idents (s_tag y) -> Forall identifier (s_ss x) -> Forall identifier (s_ss y) ->
  series_text ct kt (Some ps_tag_text) kn cn rank x = Ok txt -> series_text ct kt (Some ps_tag_text) kn cn rank y = Ok txt ->
  s_tag x = s_tag y /\ s_ss x = s_ss y /\ series_size x = series_size y /\ stream_terms ct kt false x = stream_terms ct kt false y.
Proof.
  intros TX TY FX FY HX HY. unfold series_text in *. destruct (stream_terms ct kt false x) as [tx| |]; cbn [bind] in HX; try discriminate. destruct (stream_terms ct kt false y) as [ty| |]; cbn [bind] in HY; try discriminate.
  rewrite <- HX in HY. apply (f_equal (fun r => match r with Ok t => t | _ => ""%string end)) in HY. cbn beta iota in HY. rewrite !app_assoc_s in HY.
  apply tag_text_inj in HY; auto. destruct HY as [ET HY].
  apply (app_cancel "Key type: "), (app_cancel kn), (app_cancel nl), (app_cancel "Coefficient type: "), (app_cancel cn), (app_cancel nl), (app_cancel "Rank: "), (app_cancel (z_string rank)), (app_cancel nl), (app_cancel "Symbol set: ") in HY.
  apply ss_string_inj in HY; auto. destruct HY as [ES HY]. apply (app_cancel nl), (app_cancel "Number of terms: ") in HY. apply cut_num in HY; try reflexivity. destruct HY as [EN HY]. apply (app_cancel nl) in HY.
  split; [auto|]. split; [auto|]. split; [lia|]. congruence.
Qed.

(** C70. Two power series whose texts are equal have the same truncation, symbols and number of terms. *)
Theorem text_determines_truncation : forall (x y : ps) txt, trunc_idents (s_tag x) -> trunc_idents (s_tag y) -> Forall identifier (s_ss x) -> Forall identifier (s_ss y) ->
  series_text ct kt (Some ps_tag_text) kn cn rank x = Ok txt -> series_text ct kt (Some ps_tag_text) kn cn rank y = Ok txt ->
  s_tag x = s_tag y /\ s_ss x = s_ss y /\ series_size x = series_size y.
Proof. intros x y txt TX TY FX FY HX HY. destruct (text_split x y txt TX TY FX FY HX HY) as (A & B & D & _). auto. Qed.

Lemma stream_same (x y : ps) : s_ss x = s_ss y -> terms x = terms y -> stream_terms ct kt true x = stream_terms ct kt true y.
Proof.
  intros ES ET. unfold stream_terms. rewrite ES, ET. replace (series_empty x) with (series_empty y); [reflexivity|].
  pose proof (empty_terms x) as A. pose proof (empty_terms y) as B. rewrite ET in A. destruct (series_empty x), (series_empty y); auto; [apply B, A; reflexivity|symmetry; apply A, B; reflexivity].
Qed.

(** C70. Two power series with the same symbols and terms whose TeX is the same have the same truncation. *)
Theorem tex_determines_truncation : forall (x y : ps) txt, trunc_idents (s_tag x) -> trunc_idents (s_tag y) -> s_ss x = s_ss y -> terms x = terms y ->
  ps_tex ct kt x = Ok txt -> ps_tex ct kt y = Ok txt -> s_tag x = s_tag y.
Proof.
  intros x y txt TX TY ES ET HX HY. unfold ps_tex in *. rewrite <- (stream_same x y ES ET) in HY. destruct (stream_terms ct kt true x) as [t| |]; cbn [bind] in HX, HY; try discriminate.
  rewrite <- HX in HY. apply (f_equal (fun r => match r with Ok t => t | _ => ""%string end)) in HY. cbn beta iota in HY. apply app_cancel in HY. symmetry.
  destruct (s_tag x) as [|d|d ss], (s_tag y) as [|d'|d' ss']; cbn [trunc_idents] in TX, TY; try (exfalso; discriminate HY); auto.
  - apply (app_cancel " + \mathcal{O}\left( "), (app_cancel "> ") in HY. apply cut_num in HY; try reflexivity. destruct HY as [-> _]. reflexivity.
  - exfalso. apply (app_cancel " + \mathcal{O}\left( "), (app_cancel "> ") in HY. apply cut_num in HY; try reflexivity. destruct HY as [_ HY]. discriminate HY.
  - exfalso. apply (app_cancel " + \mathcal{O}\left( "), (app_cancel "> ") in HY. apply cut_num in HY; try reflexivity. destruct HY as [_ HY]. discriminate HY.
  - apply (app_cancel " + \mathcal{O}\left( "), (app_cancel "> ") in HY. apply cut_num in HY; try reflexivity. destruct HY as [-> HY]. apply (app_cancel " ; ") in HY. apply tex_symbols_inj in HY; auto. subst ss'. reflexivity.
Qed.
End Text.

(** C70. Power series of packed monomials with integer coefficients and at most 50 terms: equal texts are those of equal series. *)
Theorem ps_text_determines : forall D kn cn rank (x y : series Z Z trunc_t) txt, packable D -> wf (pm_ops D) (pm_sem D) Z_cf x -> wf (pm_ops D) (pm_sem D) Z_cf y ->
  trunc_idents (s_tag x) -> trunc_idents (s_tag y) -> Forall identifier (s_ss x) -> Forall identifier (s_ss y) -> (len (terms x) <= 50)%nat -> (len (terms y) <= 50)%nat ->
  series_text (fun c => Ok (z_string c)) (pm_stream D) (Some ps_tag_text) kn cn rank x = Ok txt ->
  series_text (fun c => Ok (z_string c)) (pm_stream D) (Some ps_tag_text) kn cn rank y = Ok txt -> s_tag x = s_tag y /\ s_ss x = s_ss y /\ terms x = terms y.
Proof.
  intros D kn cn rank x y txt HD WX WY TX TY FX FY LX LY HX HY. destruct (text_split _ _ kn cn rank x y txt TX TY FX FY HX HY) as (A & B & _ & E). split; [exact A|]. split; [exact B|].
  apply (text_determines_terms D x y HD WX WY B FX LX LY E).
Qed.
Theorem dpm_ps_text_determines : forall D ps kn cn rank (x y : series dpm Z trunc_t) txt, packable D -> psize_ok D ps -> wf (dpm_ops D ps) (dpm_sem D ps) Z_cf x -> wf (dpm_ops D ps) (dpm_sem D ps) Z_cf y ->
  trunc_idents (s_tag x) -> trunc_idents (s_tag y) -> Forall identifier (s_ss x) -> Forall identifier (s_ss y) -> (len (terms x) <= 50)%nat -> (len (terms y) <= 50)%nat ->
  series_text (fun c => Ok (z_string c)) (dpm_stream D ps) (Some ps_tag_text) kn cn rank x = Ok txt ->
  series_text (fun c => Ok (z_string c)) (dpm_stream D ps) (Some ps_tag_text) kn cn rank y = Ok txt -> s_tag x = s_tag y /\ s_ss x = s_ss y /\ terms x = terms y.
Proof.
  intros D ps kn cn rank x y txt HD G WX WY TX TY FX FY LX LY HX HY. destruct (text_split _ _ kn cn rank x y txt TX TY FX FY HX HY) as (A & B & _ & E). split; [exact A|]. split; [exact B|].
  apply (dpm_text_determines_terms D ps x y HD G WX WY B FX LX LY E).
Qed.

(** C70. With quotes and commas in the names of symbols, different symbol sets have the same text. *)
Theorem quoted_names_refuted : exists x y : series Z Z trunc_t, wf exK exS Z_cf x /\ wf exK exS Z_cf y /\ s_ss x = ["a', 'b"]%string /\ s_ss y = ["a"; "b"]%string /\
  series_text (fun c => Ok (z_string c)) (pm_stream kd_int64) (Some ps_tag_text) "k" "c" 1 x = series_text (fun c => Ok (z_string c)) (pm_stream kd_int64) (Some ps_tag_text) "k" "c" 1 y.
Proof.
  assert (W : forall ss, sorted_set ss -> wf exK exS Z_cf (psb no_truncation ss 0 []) /\ s_ss (psb no_truncation ss 0 []) = ss).
  { intros ss S. destruct (psb_wf no_truncation ss 0 [] S) as (W & E & _); [lia|reflexivity|]. auto. }
  exists (psb no_truncation ["a', 'b"]%string 0 []), (psb no_truncation ["a"; "b"]%string 0 []). destruct (W ["a', 'b"]%string) as [A B]; [repeat constructor|]. destruct (W ["a"; "b"]%string) as [A' B']; [repeat constructor|].
  split; [exact A|]. split; [exact A'|]. split; [exact B|]. split; [exact B'|]. vm_compute. reflexivity.
Qed.

(** Non-vacuity. *)
Definition tr_x : series Z Z trunc_t := psb (partial_truncation (-4) ["a"; "c"]%string) ["a"; "b"]%string 0 [([1; 0], -2); ([0; 1], 7); ([1; 2], 3)].
Example ex_ps_text : wf (pm_ops kd_int64) (pm_sem kd_int64) Z_cf tr_x /\ s_tag tr_x = partial_truncation (-4) ["a"; "c"]%string /\ trunc_idents (s_tag tr_x) /\ Forall identifier (s_ss tr_x) /\
  series_text (fun c => Ok (z_string c)) (pm_stream kd_int64) (Some ps_tag_text) "packed_monomial<long>" "integer" 1 tr_x =
    Ok ("Series type: power series" ++ nl ++ "Partial truncation degree: -4, {'a', 'c'}" ++ nl ++ "Key type: packed_monomial<long>" ++ nl ++ "Coefficient type: integer" ++ nl ++
        "Rank: 1" ++ nl ++ "Symbol set: {'a', 'b'}" ++ nl ++ "Number of terms: 3" ++ nl ++ "7*b-2*a+3*a*b**2")%string /\
  ps_tex (fun c => Ok (z_string c)) (pm_tex kd_int64) tr_x = Ok "7{b}-2{a}+3{a}{b}^{2} + \mathcal{O}\left( > -4 ; a, c \right)"%string.
Proof.
  destruct (psb_wf (partial_truncation (-4) ["a"; "c"]%string) ["a"; "b"]%string 0 [([1; 0], -2); ([0; 1], 7); ([1; 2], 3)]) as (W & S & _ & T); [repeat constructor|lia|vm_compute; reflexivity|]. fold tr_x in W, S, T.
  split; [exact W|]. split; [exact T|]. split; [rewrite T; repeat constructor|]. split; [rewrite S; repeat constructor|]. split; vm_compute; reflexivity.
Qed.

Print Assumptions text_determines_truncation.
Print Assumptions tex_determines_truncation.
Print Assumptions ps_text_determines.
Print Assumptions dpm_ps_text_determines.
Print Assumptions quoted_names_refuted.
