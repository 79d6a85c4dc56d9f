(** Proofs about printed monomials. *)
From Coq Require Import ZArith List Bool String Ascii DecimalString Lia.
From Verif Require Import Base KpackModel IntModel SymModel PMonModel DPMModel KeyOps PrintModel PrintSpec.
From Verif Require Import KpackSpec PMonSpec PMonProofs DPMSpec DPMProofs SeriesSpec KeyInst.
Import ListNotations.
Open Scope Z_scope.
Local Notation len := List.length.

(** * Strings *)
Lemma app_s_nil s : (s ++ "" = s)%string.
Proof. induction s; cbn; congruence. Qed.
Lemma app_s_assoc a b c : ((a ++ b) ++ c = a ++ (b ++ c))%string.
Proof. induction a; cbn; congruence. Qed.

Lemma skipn_cons_rd {A} (full : list A) i x r : skipn i full = x :: r -> rd full i = Ok x /\ skipn (S i) full = r.
Proof.
  revert i. induction full as [|y full IH]; intros i H.
  - destruct i; discriminate.
  - destruct i as [|i]; cbn in H.
    + inversion H; subst. split; reflexivity.
    + destruct (IH i H) as [A1 A2]. split; [exact A1|]. exact A2.
Qed.

(** * The loop that writes the text *)
Fixpoint tail_text (w : bool) (l : list (string * Z)) : string :=
  match l with
  | [] => ""
  | p :: l' => ((if w then "*" else "") ++ power_text p ++ tail_text true l')%string
  end.
Definition nonempty {A} (l : list A) : bool := match l with [] => false | _ => true end.

Lemma stream_run full : forall vs ss i os w, skipn i full = ss -> len ss = len vs ->
  rfoldi (stream_factor full) vs i (os, w) = Ok ((os ++ tail_text w (powers ss vs))%string, w || nonempty (powers ss vs)).
Proof.
  induction vs as [|v vs IH]; intros ss i os w SK L.
  - destruct ss; [|discriminate]. cbn. rewrite app_s_nil, orb_false_r. reflexivity.
  - destruct ss as [|x ss]; [discriminate|]. destruct (skipn_cons_rd _ _ _ _ SK) as [R SK'].
    cbn [rfoldi]. unfold stream_factor at 1. cbn [powers]. destruct (v =? 0) eqn:E0; cbn [negb].
    + cbn [bind]. rewrite (IH ss); auto.
    + rewrite R. cbn [bind]. rewrite (IH ss); auto. cbn [tail_text nonempty]. unfold power_text. cbn [fst snd].
      rewrite orb_true_r. f_equal. f_equal.
      destruct w, (v =? 1); cbn [negb]; rewrite ?app_s_assoc; cbn [append]; rewrite ?app_s_assoc; reflexivity.
Qed.

Lemma tail_concat : forall l p, tail_text false (p :: l) = String.concat "*" (map power_text (p :: l)).
Proof.
  cbn [tail_text append]. induction l as [|q l IH]; intros p; cbn [tail_text map String.concat].
  - apply app_s_nil.
  - specialize (IH q). cbn [map String.concat] in IH. rewrite <- IH. reflexivity.
Qed.

Lemma stream_all ss vs : len ss = len vs ->
  (st <- rfoldi (stream_factor ss) vs 0 (""%string, false) ;; Ok (stream_end st)) = Ok (monomial_text (powers ss vs)).
Proof.
  intros L. rewrite (stream_run ss vs ss 0) by auto. cbn [bind append]. unfold stream_end. cbn [fst snd orb]. unfold monomial_text.
  destruct (powers ss vs) as [|p l]; [reflexivity|]. cbn [nonempty]. rewrite tail_concat. reflexivity.
Qed.

(** The plain text of a packed monomial. *)
Lemma pm_text_ok D (ss : symbol_set) p vs : packable D -> represents D (len ss) p vs -> pm_stream D p ss = Ok (monomial_text (powers ss vs)).
Proof.
  intros HD R. pose proof R as (L & _). unfold pm_stream. destruct (rep_unpack _ _ _ _ HD R) as (u & -> & P). cbn [bind].
  rewrite (unpack_loop_pure _ _ _ _ _ _ _ P). apply stream_all. auto.
Qed.
(** The plain text of a dynamic packed monomial. *)
Lemma dpm_text_ok D ps (ss : symbol_set) d vs : packable D -> psize_ok D ps -> drepresents D ps (len ss) d vs -> dpm_stream D ps d ss = Ok (monomial_text (powers ss vs)).
Proof.
  intros HD G R. pose proof R as (L & _). unfold psize_ok in G. unfold dpm_stream. rewrite (read_lt D ps _ d vs _ _ HD G R). apply stream_all. auto.
Qed.

(** * The loop that writes TeX *)
Lemma powers_tex_cons p l : powers_tex (p :: l) = (power_tex p ++ powers_tex l)%string.
Proof. unfold powers_tex. cbn [map String.concat]. destruct l; [cbn; rewrite app_s_nil|]; reflexivity. Qed.

Lemma tex_run full : forall vs ss i num den, skipn i full = ss -> len ss = len vs ->
  rfoldi (tex_factor full) vs i (num, den) =
  Ok ((num ++ powers_tex (filter (fun p => (0 <? snd p)%Z) (powers ss vs)))%string, (den ++ powers_tex (filter (fun p => (snd p <? 0)%Z) (powers ss vs)))%string).
Proof.
  induction vs as [|v vs IH]; intros ss i num den SK L.
  - destruct ss; [|discriminate]. cbn. rewrite !app_s_nil. reflexivity.
  - destruct ss as [|x ss]; [discriminate|]. destruct (skipn_cons_rd _ _ _ _ SK) as [R SK'].
    cbn [rfoldi]. unfold tex_factor at 1. cbn [powers]. destruct (v =? 0) eqn:E0.
    + cbn [bind]. rewrite (IH ss); auto.
    + apply Z.eqb_neq in E0. rewrite R. cbn [bind filter snd]. destruct (0 <? v) eqn:E1.
      * apply Z.ltb_lt in E1. replace (v <? 0) with false by (symmetry; apply Z.ltb_ge; lia). rewrite (IH ss); auto.
        rewrite powers_tex_cons. unfold power_tex. cbn [fst snd]. rewrite (Z.abs_eq v) by lia. rewrite !app_s_assoc.
        destruct (v =? 1); cbn [negb]; reflexivity.
      * apply Z.ltb_ge in E1. replace (v <? 0) with true by (symmetry; apply Z.ltb_lt; lia). rewrite (IH ss); auto.
        rewrite powers_tex_cons. unfold power_tex. cbn [fst snd]. rewrite (Z.abs_neq v) by lia. rewrite !app_s_assoc.
        destruct (- v =? 1); cbn [negb]; reflexivity.
Qed.

Lemma powers_tex_ne p l : (powers_tex (p :: l) =? "")%string = false.
Proof. rewrite powers_tex_cons. reflexivity. Qed.

Lemma tex_all ss vs : len ss = len vs ->
  (st <- rfoldi (tex_factor ss) vs 0 (""%string, ""%string) ;; Ok (tex_end st)) = Ok (monomial_tex (powers ss vs)).
Proof.
  intros L. rewrite (tex_run ss vs ss 0) by auto. cbn [bind append]. unfold tex_end, monomial_tex.
  destruct (filter _ _) as [|p l]; destruct (filter (fun p => snd p <? 0) _) as [|q m]; rewrite ?powers_tex_ne; reflexivity.
Qed.
Lemma pm_tex_ok D (ss : symbol_set) p vs : packable D -> represents D (len ss) p vs -> pm_tex D p ss = Ok (monomial_tex (powers ss vs)).
Proof.
  intros HD R. pose proof R as (L & _). unfold pm_tex. destruct (rep_unpack _ _ _ _ HD R) as (u & -> & P). cbn [bind].
  rewrite (unpack_loop_pure _ _ _ _ _ _ _ P). apply tex_all. auto.
Qed.
Lemma dpm_tex_ok D ps (ss : symbol_set) d vs : packable D -> psize_ok D ps -> drepresents D ps (len ss) d vs -> dpm_tex D ps d ss = Ok (monomial_tex (powers ss vs)).
Proof.
  intros HD G R. pose proof R as (L & _). unfold psize_ok in G. unfold dpm_tex. rewrite (read_lt D ps _ d vs _ _ HD G R). apply tex_all. auto.
Qed.
