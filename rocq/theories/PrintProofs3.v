(** The reader of PrintSpec reads printed sums of products. *)
From Coq Require Import ZArith List Bool String Ascii DecimalString DecimalPos DecimalFacts Lia.
From Verif Require Import Base SymModel PrintModel PrintSpec PrintProofs PrintProofs2.
Import ListNotations.
Open Scope Z_scope.
Local Notation len := List.length.

(** * Words *)
Definition stop (s : string) : Prop :=
  match s with EmptyString => True | String c _ => is_digit c = false /\ is_letter c = false end.
Definition app_tok (l : list token) (r : option (list token)) : option (list token) :=
  match r with Some m => Some (l ++ m) | None => None end.
Definition word (t : token) : Prop := match t with TNum _ | TName _ => True | _ => False end.

Lemma lex_stop t s : stop s -> lex (Some t) s = cons_tok t (lex None s).
Proof.
  destruct s as [|c s]; intros ST; [reflexivity|]. destruct ST as [A B]. cbn [lex]. rewrite A, B.
  destruct (Ascii.eqb c "+"); [reflexivity|]. destruct (Ascii.eqb c "-"); [reflexivity|]. destruct (Ascii.eqb c "*"); [|reflexivity].
  destruct s as [|d s]; [reflexivity|]. destruct (Ascii.eqb d "*"); reflexivity.
Qed.

Fixpoint uacc (a : Z) (u : Decimal.uint) : Z :=
  match u with
  | Decimal.Nil => a
  | Decimal.D0 u => uacc (10 * a + 0) u | Decimal.D1 u => uacc (10 * a + 1) u | Decimal.D2 u => uacc (10 * a + 2) u
  | Decimal.D3 u => uacc (10 * a + 3) u | Decimal.D4 u => uacc (10 * a + 4) u | Decimal.D5 u => uacc (10 * a + 5) u
  | Decimal.D6 u => uacc (10 * a + 6) u | Decimal.D7 u => uacc (10 * a + 7) u | Decimal.D8 u => uacc (10 * a + 8) u
  | Decimal.D9 u => uacc (10 * a + 9) u
  end.

Lemma uacc_pos : forall u p, Z.pos (Pos.of_uint_acc u p) = uacc (Z.pos p) u.
Proof.
  induction u; intros p; cbn [Pos.of_uint_acc uacc]; [reflexivity|..]; rewrite IHu; f_equal; lia.
Qed.
Lemma uacc_of : forall u, Z.of_N (Pos.of_uint u) = uacc 0 u.
Proof.
  induction u; cbn [Pos.of_uint uacc]; [reflexivity|exact IHu|..]; cbn [Z.of_N]; rewrite uacc_pos; reflexivity.
Qed.

Lemma lex_uint : forall u a s, stop s -> lex (Some (TNum a)) (NilEmpty.string_of_uint u ++ s) = cons_tok (TNum (uacc a u)) (lex None s).
Proof.
  induction u; intros a s ST; cbn [NilEmpty.string_of_uint append uacc]; [apply lex_stop; auto|..];
    rewrite <- IHu by auto; reflexivity.
Qed.
Lemma lex_uint0 u s : stop s -> lex None (NilZero.string_of_uint u ++ s) = cons_tok (TNum (uacc 0 u)) (lex None s).
Proof.
  intros ST. destruct u; cbn [NilZero.string_of_uint NilEmpty.string_of_uint append uacc]; [rewrite <- lex_stop by auto; reflexivity|..];
    rewrite <- lex_uint by auto; reflexivity.
Qed.

Lemma decimal_pos p : decimal (Z.pos p) = NilZero.string_of_uint (Pos.to_uint p).
Proof. reflexivity. Qed.
Lemma decimal_neg c : c < 0 -> decimal c = String "-" (decimal (- c)).
Proof. destruct c; intros; try lia. reflexivity. Qed.

Lemma lex_decimal n s : 0 <= n -> stop s -> lex None (decimal n ++ s) = cons_tok (TNum n) (lex None s).
Proof.
  intros N ST. destruct n as [|p|p]; [|..|lia].
  - change (decimal 0) with (NilZero.string_of_uint (Decimal.D0 Decimal.Nil)). rewrite lex_uint0 by auto. reflexivity.
  - rewrite decimal_pos, lex_uint0 by auto. rewrite <- uacc_of. rewrite Unsigned.of_to. reflexivity.
Qed.

Lemma lex_ident_cont : forall x y s, all_alnum x -> stop s -> lex (Some (TName y)) (x ++ s) = cons_tok (TName (y ++ x)) (lex None s).
Proof.
  induction x as [|c x IH]; intros y s A ST; [cbn [append]; rewrite app_s_nil; apply lex_stop; auto|].
  destruct A as [A A']. cbn [append lex]. destruct (is_digit c).
  - rewrite IH, app_s_assoc by auto. reflexivity.
  - cbn in A. rewrite A. rewrite IH, app_s_assoc by auto. reflexivity.
Qed.
Lemma letter_not_digit c : is_letter c = true -> is_digit c = false.
Proof. unfold is_letter, is_digit. rewrite !orb_true_iff, !andb_true_iff, !Z.leb_le, Z.eqb_eq. intros. apply andb_false_iff. rewrite !Z.leb_gt. lia. Qed.
Lemma lex_ident x s : identifier x -> stop s -> lex None (x ++ s) = cons_tok (TName x) (lex None s).
Proof.
  destruct x as [|c x]; [contradiction|]. intros [L A] ST. cbn [append lex]. rewrite (letter_not_digit c L), L. rewrite lex_ident_cont by auto. reflexivity.
Qed.

Lemma stop_sign c s : In c ["+"; "-"; "*"]%char -> stop (String c s).
Proof. cbn. intros [<-|[<-|[<-|[]]]]; split; reflexivity. Qed.
Lemma app_tok_cons t l r : app_tok (t :: l) r = cons_tok t (app_tok l r).
Proof. destruct r; reflexivity. Qed.
Lemma app_tok_app l m r : app_tok (l ++ m) r = app_tok l (app_tok m r).
Proof. destruct r; cbn; [rewrite app_assoc|]; reflexivity. Qed.
Lemma app_tok_nil r : app_tok [] r = r.
Proof. destruct r; reflexivity. Qed.

(** The words of a text. *)
Definition lexes (t : string) (l : list token) : Prop := forall s, stop s -> lex None (t ++ s) = app_tok l (lex None s).

Definition toks_z (n : Z) : list token := if n <? 0 then [TMinus; TNum (- n)] else [TNum n].
Definition toks_power (p : string * Z) : list token := if snd p =? 1 then [TName (fst p)] else TName (fst p) :: TPow :: toks_z (snd p).
Fixpoint toks_mono (l : list (string * Z)) : list token :=
  match l with [] => [] | [p] => toks_power p | p :: l' => toks_power p ++ TStar :: toks_mono l' end.
Definition toks_term (a : Z) (l : list (string * Z)) : list token :=
  match l with [] => [TNum a] | _ => if a =? 1 then toks_mono l else TNum a :: TStar :: toks_mono l end.

Lemma lexes_z n : lexes (decimal n) (toks_z n).
Proof.
  intros s ST. unfold toks_z. destruct (n <? 0) eqn:E.
  - apply Z.ltb_lt in E. rewrite decimal_neg by auto. cbn [append lex]. cbn [is_digit is_letter]. change (is_digit "-") with false. change (is_letter "-") with false.
    cbn [Ascii.eqb Bool.eqb flush]. rewrite lex_decimal by (auto; lia). rewrite !app_tok_cons, app_tok_nil. reflexivity.
  - apply Z.ltb_ge in E. rewrite lex_decimal by auto. rewrite app_tok_cons, app_tok_nil. reflexivity.
Qed.

Definition ident_powers (l : list (string * Z)) : Prop := Forall (fun p => identifier (fst p)) l.

Lemma lexes_power p : identifier (fst p) -> lexes (power_text p) (toks_power p).
Proof.
  intros I s ST. unfold power_text, toks_power. destruct (snd p =? 1).
  - rewrite lex_ident by auto. rewrite app_tok_cons, app_tok_nil. reflexivity.
  - rewrite app_s_assoc, lex_ident; [|auto|apply stop_sign; cbn; auto]. rewrite app_tok_cons. f_equal. cbn [append].
    rewrite app_tok_cons. rewrite <- (lexes_z (snd p) s ST). reflexivity.
Qed.
Definition begins_letter (t : string) : Prop := match t with String c _ => is_letter c = true | _ => False end.
Lemma ident_letter x y : identifier x -> begins_letter (x ++ y).
Proof. destruct x; cbn; intuition. Qed.
Lemma power_letter p : identifier (fst p) -> begins_letter (power_text p).
Proof. intros I. unfold power_text. destruct (snd p =? 1); [rewrite <- (app_s_nil (fst p))|]; apply ident_letter; auto. Qed.
Lemma letter_app x y : begins_letter x -> begins_letter (x ++ y).
Proof. destruct x; cbn; intuition. Qed.
Lemma lex_star t : begins_letter t -> lex None (String "*" t) = cons_tok TStar (lex None t).
Proof.
  destruct t as [|c t]; [contradiction|]. intros L. assert (N : Ascii.eqb c "*" = false).
  { apply Ascii.eqb_neq. intros ->. discriminate L. }
  change (lex None (String "*" (String c t))) with (if Ascii.eqb c "*" then flush None (cons_tok TPow (lex None t)) else flush None (cons_tok TStar (lex None (String c t)))).
  rewrite N. reflexivity.
Qed.

Lemma mono_cons p q l : monomial_text (p :: q :: l) = (power_text p ++ "*" ++ monomial_text (q :: l))%string.
Proof. reflexivity. Qed.
Lemma mono_letter p l : identifier (fst p) -> begins_letter (monomial_text (p :: l)).
Proof.
  intros I. destruct l as [|q l]; [cbn; apply power_letter; auto|]. rewrite mono_cons. apply letter_app, power_letter; auto.
Qed.
Lemma lexes_mono : forall l p, ident_powers (p :: l) -> lexes (monomial_text (p :: l)) (toks_mono (p :: l)).
Proof.
  induction l as [|q l IH]; intros p I; inversion I; subst.
  - cbn [monomial_text map String.concat toks_mono]. apply lexes_power; auto.
  - intros s ST. rewrite mono_cons, !app_s_assoc. change (toks_mono (p :: q :: l)) with (toks_power p ++ TStar :: toks_mono (q :: l)).
    rewrite lexes_power; [|auto|apply stop_sign; cbn; auto]. rewrite app_tok_app, app_tok_cons. f_equal.
    cbn [append]. rewrite lex_star; [rewrite IH by auto; reflexivity|]. apply letter_app, mono_letter. inversion H2; auto.
Qed.

Lemma decimal_one c : (decimal c =? "1")%string = (c =? 1).
Proof.
  destruct (c =? 1) eqn:E; [apply Z.eqb_eq in E; subst; reflexivity|]. apply Z.eqb_neq in E. apply String.eqb_neq. intros X.
  pose proof (lexes_z c ""%string I) as L. rewrite app_s_nil, X in L. unfold toks_z in L. destruct (c <? 0); cbn in L; [discriminate|].
  inversion L. congruence.
Qed.
Lemma decimal_minus_one c : (decimal c =? "-1")%string = (c =? -1).
Proof.
  destruct (c =? -1) eqn:E; [apply Z.eqb_eq in E; subst; reflexivity|]. apply Z.eqb_neq in E. apply String.eqb_neq. intros X.
  pose proof (lexes_z c ""%string I) as L. rewrite app_s_nil, X in L. unfold toks_z in L. destruct (c <? 0); cbn in L; [|discriminate].
  inversion L. apply E. lia.
Qed.
Lemma letter_not_one t : begins_letter t -> (t =? "1")%string = false.
Proof. intros L. apply String.eqb_neq. intros ->. discriminate L. Qed.

(** The text of a term, without its sign. *)
Definition unsigned_text (a : Z) (l : list (string * Z)) : string := product_text "*" (decimal a) (monomial_text l).
Lemma lexes_term a l : 0 <= a -> ident_powers l -> lexes (unsigned_text a l) (toks_term a l).
Proof.
  intros A I s ST. unfold unsigned_text, product_text, toks_term. destruct l as [|p l].
  - change (monomial_text []) with "1"%string. cbn [String.eqb Ascii.eqb Bool.eqb]. rewrite lex_decimal by auto. rewrite app_tok_cons, app_tok_nil. reflexivity.
  - inversion I; subst. rewrite (letter_not_one _ (mono_letter p l H1)). rewrite decimal_one, decimal_minus_one.
    destruct (a =? 1) eqn:E.
    + apply lexes_mono; auto.
    + replace (a =? -1) with false by (symmetry; apply Z.eqb_neq; lia). rewrite !app_s_assoc.
      rewrite lex_decimal; [|auto|apply stop_sign; cbn; auto]. rewrite !app_tok_cons. f_equal. cbn [append].
      rewrite lex_star by (apply letter_app, mono_letter; auto). rewrite lexes_mono by auto. reflexivity.
Qed.
Lemma signed_text c l : ident_powers l -> product_text "*" (decimal c) (monomial_text l) = ((if (c <? 0)%Z then "-" else "") ++ unsigned_text (Z.abs c) l)%string.
Proof.
  intros I. unfold unsigned_text. destruct (c <? 0) eqn:E; [|apply Z.ltb_ge in E; rewrite Z.abs_eq by auto; reflexivity].
  apply Z.ltb_lt in E. rewrite Z.abs_neq by lia. unfold product_text. rewrite !decimal_one, !decimal_minus_one, (decimal_neg c E).
  destruct (_ =? "1")%string; [reflexivity|]. replace (c =? 1) with false by (symmetry; apply Z.eqb_neq; lia).
  replace (- c =? -1) with false by (symmetry; apply Z.eqb_neq; lia). replace (- c =? 1) with (c =? -1).
  - destruct (c =? -1); reflexivity.
  - destruct (Z.eqb_spec c (-1)), (Z.eqb_spec (- c) 1); auto; lia.
Qed.

(** * Sums *)
Definition ends (r : list token) : Prop := match r with [] | TPlus :: _ | TMinus :: _ => True | _ => False end.
Lemma after_mul g f r : ends r ->
  match after read_terms f r with Some (t, l) => Some (rmul g t, l) | None => None end = after read_terms (rmul g f) r.
Proof.
  destruct r as [|[] r]; cbn; try contradiction; intros _; [reflexivity|..]; destruct (read_terms r) as [[? ?]|]; reflexivity.
Qed.

Lemma read_power p r : (match r with TPow :: _ => False | _ => True end) -> read_terms (toks_power p ++ r) = after read_terms (1, [p]) r.
Proof.
  intros NP. destruct p as [x v]. unfold toks_power, toks_z. cbn [fst snd]. destruct (v =? 1) eqn:E.
  - apply Z.eqb_eq in E. subst. destruct r as [|[] r]; try contradiction; reflexivity.
  - destruct (v <? 0); cbn [app read_terms]; rewrite ?Z.opp_involutive; reflexivity.
Qed.
Lemma read_mono r : ends r -> forall l p, read_terms (toks_mono (p :: l) ++ r) = after read_terms (1, p :: l) r.
Proof.
  intros E. induction l as [|q l IH]; intros p.
  - cbn [toks_mono]. apply read_power. destruct r as [|[] r]; cbn in *; auto.
  - change (toks_mono (p :: q :: l)) with (toks_power p ++ TStar :: toks_mono (q :: l)). rewrite <- app_assoc, read_power by (cbn; auto).
    change ((TStar :: toks_mono (q :: l)) ++ r) with (TStar :: (toks_mono (q :: l) ++ r)). cbn [after]. rewrite IH, after_mul by auto. reflexivity.
Qed.
Lemma read_term a l r : ends r -> read_terms (toks_term a l ++ r) = after read_terms (a, l) r.
Proof.
  intros E. unfold toks_term. destruct l as [|p l]; [reflexivity|]. destruct (a =? 1) eqn:EA.
  - apply Z.eqb_eq in EA. subst. apply read_mono; auto.
  - change ((TNum a :: TStar :: toks_mono (p :: l)) ++ r) with (TNum a :: TStar :: (toks_mono (p :: l) ++ r)). cbn [read_terms after].
    rewrite read_mono, after_mul by auto. unfold rmul. cbn [fst snd app]. rewrite Z.mul_1_r. reflexivity.
Qed.

Definition toks_signed (t : rterm) : list token := (if fst t <? 0 then TMinus else TPlus) :: toks_term (Z.abs (fst t)) (snd t).
Definition toks_more (l : list rterm) : list token := List.concat (map toks_signed l).
Lemma more_ends l : ends (toks_more l).
Proof. destruct l as [|t l]; [exact I|]. unfold toks_more. cbn [map List.concat]. unfold toks_signed. destruct (fst t <? 0); exact I. Qed.
Lemma read_more : forall l a m, read_terms (toks_term a m ++ toks_more l) = Some ((a, m), l).
Proof.
  induction l as [|[c n] l IH]; intros a m; rewrite read_term by apply more_ends; [reflexivity|].
  unfold toks_more. cbn [map List.concat]. unfold toks_signed at 1. cbn [fst snd]. fold (toks_more l). rewrite <- app_comm_cons.
  destruct (c <? 0) eqn:E; cbn [after]; rewrite IH.
  - apply Z.ltb_lt in E. unfold rneg. cbn [fst snd]. rewrite Z.abs_neq by lia. rewrite Z.opp_involutive. reflexivity.
  - apply Z.ltb_ge in E. rewrite Z.abs_eq by auto. reflexivity.
Qed.
Lemma term_head a l : exists t r, toks_term a l = t :: r /\ word t.
Proof.
  unfold toks_term. destruct l as [|p l]; [do 2 eexists; split; [reflexivity|exact I]|]. destruct (a =? 1); [|do 2 eexists; split; [reflexivity|exact I]].
  assert (P : exists t r, toks_power p = t :: r /\ word t). { unfold toks_power. destruct (snd p =? 1); do 2 eexists; split; [reflexivity|exact I|reflexivity|exact I]. }
  destruct P as (t & r & E & W). destruct l as [|q l]; cbn [toks_mono]; rewrite E; [eauto|]. rewrite <- app_comm_cons. eauto.
Qed.

(** * Texts of sums *)
Definition rterm_text (t : rterm) : string := product_text "*" (decimal (fst t)) (monomial_text (snd t)).
Definition ident_terms (l : list rterm) : Prop := Forall (fun t => ident_powers (snd t)) l.

Lemma begins_minus_sign t : ident_powers (snd t) -> begins_minus (rterm_text t) = (fst t <? 0).
Proof.
  intros I. destruct t as [c l]. unfold rterm_text. cbn [fst snd] in *. rewrite signed_text by auto. destruct (c <? 0) eqn:E; [reflexivity|].
  cbn [append]. unfold begins_minus. pose proof (lexes_term (Z.abs c) l ltac:(lia) I ""%string Logic.I) as L. rewrite app_s_nil in L.
  destruct (unsigned_text (Z.abs c) l) as [|d s] eqn:EU; [reflexivity|]. destruct (Ascii.eqb_spec d "-") as [->|]; [exfalso|reflexivity].
  cbn [lex is_digit is_letter] in L. change (is_digit "-") with false in L. change (is_letter "-") with false in L. cbn [Ascii.eqb Bool.eqb flush] in L.
  destruct (term_head (Z.abs c) l) as (t & r & ET & W). rewrite ET in L. cbn in L. destruct (lex None s); cbn in L; [|discriminate].
  inversion L; subst. exact W.
Qed.
Lemma more_stop l : ident_terms l -> stop (more_terms (map rterm_text l)).
Proof.
  destruct l as [|t l]; [intros; exact I|]. intros F. inversion F; subst. cbn [map more_terms]. destruct (begins_minus (rterm_text t)) eqn:E.
  - destruct (rterm_text t) as [|d s]; [discriminate|]. cbn in E. apply Ascii.eqb_eq in E. subst. apply stop_sign. cbn. auto.
  - cbn [append]. apply stop_sign. cbn. auto.
Qed.
Lemma lex_more : forall l, ident_terms l -> lex None (more_terms (map rterm_text l)) = Some (toks_more l).
Proof.
  induction l as [|t l IH]; intros F; [reflexivity|]. pose proof F as F'. inversion F'; subst. cbn [map more_terms].
  rewrite begins_minus_sign by auto. unfold toks_more. cbn [map List.concat]. fold (toks_more l). unfold toks_signed.
  change (rterm_text t) with (product_text "*" (decimal (fst t)) (monomial_text (snd t))). rewrite signed_text by auto. destruct (fst t <? 0).
  - rewrite app_s_assoc. cbn [append lex is_digit is_letter]. change (is_digit "-") with false. change (is_letter "-") with false. cbn [Ascii.eqb Bool.eqb flush].
    rewrite lexes_term; [|lia|auto|apply more_stop; auto]. rewrite IH by auto. cbn. reflexivity.
  - cbn [append lex is_digit is_letter]. change (is_digit "+") with false. change (is_letter "+") with false. cbn [Ascii.eqb Bool.eqb flush].
    rewrite lexes_term; [|lia|auto|apply more_stop; auto]. rewrite IH by auto. cbn. reflexivity.
Qed.

(** Reading a printed sum. *)
Lemma read_printed l : l <> [] -> ident_terms l -> read_text (sum_text (map rterm_text l)) = Some l.
Proof.
  intros NE F. destruct l as [|t l]; [congruence|]. inversion F; subst. unfold read_text. cbn [map sum_text].
  unfold rterm_text at 1. rewrite signed_text by auto. destruct t as [c m]. cbn [fst snd] in *. destruct (c <? 0) eqn:E.
  - rewrite app_s_assoc. cbn [append lex is_digit is_letter]. change (is_digit "-") with false. change (is_letter "-") with false. cbn [Ascii.eqb Bool.eqb flush].
    rewrite lexes_term; [|lia|auto|apply more_stop; auto]. rewrite lex_more by auto. cbn [app_tok cons_tok read_sum]. rewrite read_more.
    apply Z.ltb_lt in E. unfold rneg. cbn [fst snd]. rewrite Z.abs_neq by lia. rewrite Z.opp_involutive. reflexivity.
  - cbn [append]. rewrite lexes_term; [|lia|auto|apply more_stop; auto]. rewrite lex_more by auto. cbn [app_tok].
    destruct (term_head (Z.abs c) m) as (h & r & EH & W). pose proof (read_more l (Z.abs c) m) as R. rewrite EH in *. rewrite <- app_comm_cons in *.
    unfold read_sum. apply Z.ltb_ge in E. rewrite Z.abs_eq in R by auto. destruct h; try contradiction; rewrite R; reflexivity.
Qed.

(** * Printed terms are clean *)
Fixpoint nop (s : string) : Prop := match s with EmptyString => True | String c s' => c <> "+"%char /\ nop s' end.
Lemma nop_clean s : nop s -> clean s.
Proof. induction s as [|c s IH]; cbn; [auto|]. intros [A B]. split; [congruence|auto]. Qed.
Lemma nop_app a b : nop a -> nop b -> nop (a ++ b).
Proof. induction a; cbn; intuition. Qed.
Lemma nop_uint u : nop (NilEmpty.string_of_uint u).
Proof. induction u; cbn; auto; split; auto; discriminate. Qed.
Lemma nop_decimal n : nop (decimal n).
Proof.
  assert (A : forall u, nop (NilZero.string_of_uint u)). { intros u. destruct u; [cbn; split; [discriminate|exact I]|..]; apply nop_uint. }
  unfold decimal, NilZero.string_of_int. destruct (Z.to_int n); [apply A|]. cbn. split; [discriminate|apply A].
Qed.
Lemma nop_alnum s : all_alnum s -> nop s.
Proof. induction s as [|c s IH]; cbn; [auto|]. intros [A B]. split; auto. intros ->. discriminate A. Qed.
Lemma nop_ident s : identifier s -> nop s.
Proof. destruct s; [contradiction|]. intros [A B]. apply nop_alnum. cbn. rewrite A, orb_true_r. auto. Qed.
Lemma nop_power p : nop (fst p) -> nop (power_text p).
Proof. intros N. unfold power_text. destruct (snd p =? 1); auto. apply nop_app; auto. apply nop_app; [cbn; repeat split; discriminate|apply nop_decimal]. Qed.
Lemma nop_mono l : Forall (fun p => nop (fst p)) l -> nop (monomial_text l).
Proof.
  destruct l as [|p l]; [cbn; split; [discriminate|exact I]|]. revert p. induction l as [|q l IH]; intros p F; inversion F; subst.
  - cbn. apply nop_power; auto.
  - rewrite mono_cons. apply nop_app; [apply nop_power; auto|]. apply nop_app; [cbn; repeat split; discriminate|]. apply IH; auto.
Qed.
Lemma nop_product c k : nop c -> nop k -> nop (product_text "*" c k).
Proof.
  intros A B. unfold product_text. destruct (_ =? _)%string; auto. destruct (_ =? _)%string; auto. destruct (_ =? _)%string; repeat apply nop_app; auto;
    cbn; repeat split; discriminate.
Qed.
