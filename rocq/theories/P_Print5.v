(** C95: the printed text of polynomials with polynomial coefficients, read as an arithmetic expression, is the polynomial.  Vocabulary: NestPrintSpec.v. *)
From Coq Require Import ZArith List Bool String Ascii Arith Lia.
From Verif Require Import Base KpackModel KpackSpec KpackProofs P_Kpack IntModel SymModel SymSpec PMonModel PMonSpec PMonProofs DPMModel DPMSpec DPMProofs KeyOps KeyInst
  SeriesModel SeriesSpec SeriesProofs SeriesProofs2 CfInst P_Series2 P_Poly2 PSModel PrintModel PrintSpec PrintProofs PrintProofs2 PrintProofs3 P_Print P_Print2 NestPrintSpec.
Import ListNotations.
Open Scope Z_scope.
Open Scope res_scope.
Local Notation len := List.length.

(** * Words *)
Definition app_p (l : list ptoken) (r : option (list ptoken)) : option (list ptoken) := match r with Some m => Some (l ++ m) | None => None end.
Lemma app_p_cons t l r : app_p (t :: l) r = cons_p t (app_p l r). Proof. destruct r; reflexivity. Qed.
Lemma app_p_app l m r : app_p (l ++ m) r = app_p l (app_p m r). Proof. destruct r; cbn; [rewrite app_assoc|]; reflexivity. Qed.
Lemma app_p_nil r : app_p [] r = r. Proof. destruct r; reflexivity. Qed.
Lemma lexp_stop t s : stop s -> lex_p (Some t) s = cons_p (W t) (lex_p None s).
Proof.
  destruct s as [|c s]; intros ST; [reflexivity|]. destruct ST as [A B]. cbn [lex_p]. rewrite A, B. cbn [flush_p].
  destruct (Ascii.eqb c "("); [reflexivity|]. destruct (Ascii.eqb c ")"); [reflexivity|]. destruct (Ascii.eqb c "+"); [reflexivity|]. destruct (Ascii.eqb c "-"); [reflexivity|]. destruct (Ascii.eqb c "*"); [|reflexivity].
  destruct s as [|d s]; [reflexivity|]. destruct (Ascii.eqb d "*"); reflexivity.
Qed.
Lemma lex_bridge : forall n s cur ts rest, (String.length s <= n)%nat -> lex cur s = Some ts -> stop rest -> lex_p cur (s ++ rest) = app_p (map W ts) (lex_p None rest).
Proof.
  induction n as [|n IH]; intros s cur ts rest L E ST.
  - destruct s; [|cbn in L; lia]. cbn [append lex] in *. destruct cur as [t|]; cbn in E; inversion E; subst; cbn [map]; [rewrite lexp_stop by auto; rewrite app_p_cons, app_p_nil; reflexivity|rewrite app_p_nil; reflexivity].
  - destruct s as [|c s].
    { cbn [append lex] in *. destruct cur as [t|]; cbn in E; inversion E; subst; cbn [map]; [rewrite lexp_stop by auto; rewrite app_p_cons, app_p_nil; reflexivity|rewrite app_p_nil; reflexivity]. }
    cbn [String.length] in L. assert (L1 : (String.length s <= n)%nat) by lia. cbn [append lex_p lex] in *.
    destruct (is_digit c); [destruct cur as [[]|]; try discriminate; eapply IH; eauto|]. destruct (is_letter c); [destruct cur as [[]|]; try discriminate; eapply IH; eauto|].
    assert (SG : forall t s', (String.length s' <= n)%nat -> flush cur (cons_tok t (lex None s')) = Some ts -> flush_p cur (cons_p (W t) (lex_p None (s' ++ rest))) = app_p (map W ts) (lex_p None rest)).
    { intros t s' L2 F. destruct (lex None s') as [l|] eqn:EL; [|destruct cur; discriminate F]. rewrite (IH s' None l rest L2 EL ST). rewrite <- app_p_cons.
      destruct cur as [u|]; cbn [flush cons_tok] in F; cbn [flush_p]; [rewrite <- app_p_cons|]; assert (X : ts = match cur with Some u => u :: t :: l | None => t :: l end) || idtac; inversion F; subst; reflexivity. }
    destruct (Ascii.eqb_spec c "(") as [->|_]; [discriminate E|]. destruct (Ascii.eqb_spec c ")") as [->|_]; [discriminate E|].
    destruct (Ascii.eqb c "+"); [apply SG; auto|]. destruct (Ascii.eqb c "-"); [apply SG; auto|]. destruct (Ascii.eqb c "*"); [|discriminate].
    destruct s as [|d s]; [discriminate|]. cbn [append]. destruct (Ascii.eqb d "*"); [apply SG; auto; cbn in L1; lia|]. apply (SG TStar (String d s)); auto.
Qed.
Lemma bridge s ts rest : lex None s = Some ts -> stop rest -> lex_p None (s ++ rest) = app_p (map W ts) (lex_p None rest).
Proof. apply (lex_bridge (String.length s)). auto. Qed.
Lemma lexp_term a m rest : 0 <= a -> ident_powers m -> stop rest -> lex_p None (unsigned_text a m ++ rest) = app_p (map W (toks_term a m)) (lex_p None rest).
Proof. intros A J ST. apply bridge; auto. pose proof (lexes_term a m A J ""%string Logic.I) as L. rewrite app_s_nil in L. rewrite L. cbn. rewrite app_nil_r. reflexivity. Qed.
Lemma lexp_sign c t rest : (c = "+"%char /\ t = TPlus \/ c = "-"%char /\ t = TMinus) -> lex_p None (String c rest) = cons_p (W t) (lex_p None rest).
Proof. intros [[-> ->]|[-> ->]]; reflexivity. Qed.

(** The words of a printed sum. *)
Definition toks_sum (l : list rterm) : list token :=
  match l with [] => [] | t :: l => (if fst t <? 0 then [TMinus] else []) ++ toks_term (Z.abs (fst t)) (snd t) ++ toks_more l end.
Lemma lex_sum l : l <> [] -> ident_terms l -> lex None (sum_text (map rterm_text l)) = Some (toks_sum l).
Proof.
  intros NE F. destruct l as [|t l]; [congruence|]. inversion F; subst. cbn [map sum_text toks_sum]. change (rterm_text t) with (product_text "*" (decimal (fst t)) (monomial_text (snd t))). rewrite signed_text by auto.
  destruct (fst t <? 0).
  - rewrite app_s_assoc. cbn [append lex]. change (is_digit "-") with false. change (is_letter "-") with false. cbn [Ascii.eqb Bool.eqb flush].
    rewrite lexes_term; [|lia|auto|apply more_stop; auto]. rewrite lex_more by auto. reflexivity.
  - cbn [append]. rewrite lexes_term; [|lia|auto|apply more_stop; auto]. rewrite lex_more by auto. reflexivity.
Qed.

(** * The reader *)
Definition ends_p (r : list ptoken) : Prop := match r with W TPow :: _ => False | _ => True end.
Lemma put_ok d c w v : w <> Sign -> put_factor (Frame d c w) v = Some (Frame d (sum_mul c v) Sign).
Proof. destruct w; [reflexivity|reflexivity|congruence]. Qed.
Lemma run_num n r d c w o : w <> Sign -> run (W (TNum n) :: r) (Frame d c w) o = run r (Frame d (sum_mul c [(n, [])]) Sign) o.
Proof. intros H. cbn [run]. rewrite put_ok by auto. reflexivity. Qed.
Lemma run_power p r d c w o : w <> Sign -> ends_p r -> run (map W (toks_power p) ++ r) (Frame d c w) o = run r (Frame d (sum_mul c [(1, [p])]) Sign) o.
Proof.
  intros H E. destruct p as [x n]. unfold toks_power, toks_z. cbn [fst snd]. destruct (Z.eqb_spec n 1) as [->|N].
  - cbn [map app]. assert (X : run (W (TName x) :: r) (Frame d c w) o = match put_factor (Frame d c w) [(1, [(x, 1)])] with Some f' => run r f' o | None => None end).
    { destruct r as [|[[]| |] r]; try reflexivity. contradiction. }
    rewrite X, put_ok by auto. reflexivity.
  - destruct (n <? 0); cbn [map app run]; rewrite put_ok by auto; [rewrite Z.opp_involutive|]; reflexivity.
Qed.
Lemma sum_mul_1 c m n : sum_mul (sum_mul c [(1, m)]) [(1, n)] = sum_mul c [(1, m ++ n)].
Proof. unfold sum_mul. induction c as [|s c IH]; [reflexivity|]. cbn [flat_map map app]. f_equal; [|exact IH]. unfold rmul. cbn [fst snd]. f_equal; [lia|]. rewrite app_assoc. reflexivity. Qed.
Lemma sum_mul_a c a m : sum_mul (sum_mul c [(a, [])]) [(1, m)] = sum_mul c [(a, m)].
Proof. unfold sum_mul. induction c as [|s c IH]; [reflexivity|]. cbn [flat_map map app]. f_equal; [|exact IH]. unfold rmul. cbn [fst snd]. f_equal; [lia|]. rewrite app_nil_r. reflexivity. Qed.
Lemma run_mono r o : ends_p r -> forall l p d c w, w <> Sign -> run (map W (toks_mono (p :: l)) ++ r) (Frame d c w) o = run r (Frame d (sum_mul c [(1, p :: l)]) Sign) o.
Proof.
  intros E. induction l as [|q l IH]; intros p d c w H.
  - cbn [toks_mono]. apply run_power; auto.
  - change (toks_mono (p :: q :: l)) with (toks_power p ++ TStar :: toks_mono (q :: l)). rewrite map_app, <- app_assoc. rewrite run_power; [|auto|exact I].
    cbn [map app run f_want f_done f_cur]. rewrite IH by discriminate. rewrite sum_mul_1. reflexivity.
Qed.
Lemma run_term a m r o d c w : w <> Sign -> ends_p r -> run (map W (toks_term a m) ++ r) (Frame d c w) o = run r (Frame d (sum_mul c [(a, m)]) Sign) o.
Proof.
  intros H E. unfold toks_term. destruct m as [|p m].
  - cbn [map app]. apply run_num. auto.
  - destruct (Z.eqb_spec a 1) as [->|N]; [apply run_mono; auto|]. cbn [map app]. rewrite run_num by auto. cbn [run f_want f_done f_cur]. rewrite run_mono by (auto; discriminate). rewrite sum_mul_a. reflexivity.
Qed.
Lemma one_l v : sum_mul one_s v = v.
Proof. unfold sum_mul, one_s. cbn [flat_map]. rewrite app_nil_r. induction v as [|[a m] v IH]; [reflexivity|]. cbn [map]. rewrite IH. f_equal. unfold rmul. cbn [fst snd app]. f_equal. lia. Qed.
Lemma minus_one_term (t : rterm) : fst t < 0 -> sum_mul minus_one_s [(Z.abs (fst t), snd t)] = [t].
Proof. intros N. destruct t as [a m]. unfold sum_mul, minus_one_s. cbn [flat_map map app fst snd] in *. unfold rmul. cbn [fst snd app]. do 2 f_equal. lia. Qed.
Lemma abs_term (t : rterm) : 0 <= fst t -> (Z.abs (fst t), snd t) = t.
Proof. destruct t. cbn. intros. f_equal. lia. Qed.

(** ** Pieces of a printed sum: terms, and products of a sum in parentheses and a monomial *)
Inductive piece := Flat (t : rterm) | Par (l : list rterm) (q : list (string * Z)).
Definition piece_ok (p : piece) : Prop := match p with Flat t => ident_powers (snd t) | Par l q => l <> [] /\ ident_terms l /\ q <> [] /\ ident_powers q end.
Definition piece_text (p : piece) : string := match p with Flat t => rterm_text t | Par l q => "(" ++ sum_text (map rterm_text l) ++ ")" ++ "*" ++ monomial_text q end%string.
Definition piece_value (p : piece) : list rterm := match p with Flat t => [t] | Par l q => map (fun t => (fst t, snd t ++ q)) l end.
Definition piece_neg (p : piece) : bool := match p with Flat t => fst t <? 0 | Par _ _ => false end.
(** The words of a piece without its sign. *)
Definition toks_piece (p : piece) : list ptoken := match p with Flat t => map W (toks_term (Z.abs (fst t)) (snd t)) | Par l q => Open :: map W (toks_sum l) ++ Close :: W TStar :: map W (toks_mono q) end.
Definition piece_unsigned (p : piece) : string := match p with Flat t => unsigned_text (Z.abs (fst t)) (snd t) | Par _ _ => piece_text p end.
Lemma piece_sign p : piece_ok p -> piece_text p = ((if piece_neg p then "-" else "") ++ piece_unsigned p)%string /\ begins_minus (piece_text p) = piece_neg p.
Proof.
  destruct p as [t|l q]; intros J; [|split; reflexivity]. split; [|apply begins_minus_sign; exact J]. cbn [piece_text piece_neg piece_unsigned]. unfold rterm_text. apply signed_text. exact J.
Qed.
Lemma lexp_piece p rest : piece_ok p -> stop rest -> lex_p None (piece_unsigned p ++ rest) = app_p (toks_piece p) (lex_p None rest).
Proof.
  destruct p as [t|l q]; intros J ST; cbn [piece_unsigned piece_text toks_piece].
  - apply lexp_term; auto. lia.
  - destruct J as (NE & IT & NQ & IQ). rewrite !app_s_assoc. cbn [append].
    change (lex_p None (String "(" (sum_text (map rterm_text l) ++ String ")" (String "*" (monomial_text q ++ rest))))) with (cons_p Open (lex_p None (sum_text (map rterm_text l) ++ String ")" (String "*" (monomial_text q ++ rest))))).
    rewrite (bridge _ (toks_sum l)); [|apply lex_sum; auto|split; reflexivity]. rewrite app_p_cons. f_equal. rewrite app_p_app. f_equal. rewrite !app_p_cons.
    change (lex_p None (String ")" (String "*" (monomial_text q ++ rest)))) with (cons_p Close (lex_p None (String "*" (monomial_text q ++ rest)))). f_equal.
    destruct q as [|p q]; [congruence|]. inversion IQ; subst. pose proof (letter_app _ rest (mono_letter p q H1)) as BL.
    assert (X : lex_p None (String "*" (monomial_text (p :: q) ++ rest)) = cons_p (W TStar) (lex_p None (monomial_text (p :: q) ++ rest))).
    { destruct (monomial_text (p :: q) ++ rest)%string as [|ch s]; [contradiction|]. assert (N : Ascii.eqb ch "*" = false) by (apply Ascii.eqb_neq; intros ->; discriminate BL).
      change (lex_p None (String "*" (String ch s))) with (if Ascii.eqb ch "*" then flush_p None (cons_p (W TPow) (lex_p None s)) else flush_p None (cons_p (W TStar) (lex_p None (String ch s)))). rewrite N. reflexivity. }
    rewrite X. f_equal. apply bridge; auto. pose proof (lexes_mono q p IQ ""%string Logic.I) as L. rewrite app_s_nil in L. rewrite L. cbn. rewrite app_nil_r. reflexivity.
Qed.
Definition toks_pieces (l : list piece) : list ptoken := flat_map (fun p => (if piece_neg p then W TMinus else W TPlus) :: toks_piece p) l.
Lemma pieces_stop l : Forall piece_ok l -> stop (more_terms (map piece_text l)).
Proof.
  destruct l as [|p l]; [intros; exact I|]. intros F. inversion F; subst. cbn [map more_terms]. destruct (begins_minus (piece_text p)) eqn:E; [|split; reflexivity].
  destruct (piece_text p) as [|d s]; [discriminate|]. cbn in E. apply Ascii.eqb_eq in E. subst. split; reflexivity.
Qed.
Lemma lexp_more : forall l, Forall piece_ok l -> lex_p None (more_terms (map piece_text l)) = Some (toks_pieces l).
Proof.
  induction l as [|p l IH]; intros F; [reflexivity|]. inversion F; subst. cbn [map more_terms]. destruct (piece_sign p H1) as [E S]. rewrite S, E. unfold toks_pieces. cbn [flat_map]. fold (toks_pieces l).
  destruct (piece_neg p).
  - rewrite app_s_assoc. cbn [append]. rewrite (lexp_sign "-" TMinus) by auto. rewrite lexp_piece by (auto; apply pieces_stop; auto). rewrite IH by auto. reflexivity.
  - cbn [append]. rewrite (lexp_sign "+" TPlus) by auto. rewrite lexp_piece by (auto; apply pieces_stop; auto). rewrite IH by auto. reflexivity.
Qed.

(** Reading a sum of flat terms, then [r]. *)
Lemma more_end_p l r : ends_p r -> ends_p (map W (toks_more l) ++ r).
Proof. intros E. destruct l as [|t l]; [exact E|]. unfold toks_more. cbn [map List.concat app]. unfold toks_signed. destruct (fst t <? 0); exact I. Qed.
Lemma run_more r o : ends_p r -> forall l d c, exists d' c', run (map W (toks_more l) ++ r) (Frame d c Sign) o = run r (Frame d' c' Sign) o /\ d' ++ c' = d ++ c ++ l.
Proof.
  intros E. induction l as [|t l IH]; intros d c; [exists d, c; rewrite app_nil_r; auto|]. unfold toks_more. cbn [map List.concat]. fold (toks_more l). unfold toks_signed. rewrite map_app, <- app_assoc. cbn [map app].
  destruct (Z.ltb_spec (fst t) 0) as [N|N]; cbn [run f_want f_done f_cur]; rewrite run_term by (try discriminate; apply more_end_p; auto).
  - rewrite minus_one_term by auto. destruct (IH (d ++ c) [t]) as (d' & c' & R & Q). exists d', c'. split; [exact R|]. rewrite Q, <- app_assoc. reflexivity.
  - rewrite one_l, abs_term by auto. destruct (IH (d ++ c) [t]) as (d' & c' & R & Q). exists d', c'. split; [exact R|]. rewrite Q, <- app_assoc. reflexivity.
Qed.
Lemma run_sum l r o : l <> [] -> ends_p r -> exists d c, run (map W (toks_sum l) ++ r) start o = run r (Frame d c Sign) o /\ d ++ c = l.
Proof.
  intros NE E. destruct l as [|t l]; [congruence|]. cbn [toks_sum]. rewrite !map_app, <- !app_assoc. unfold start. destruct (Z.ltb_spec (fst t) 0) as [N|N]; cbn [map app run f_want f_done f_cur].
  - rewrite run_term by (try discriminate; apply more_end_p; auto). rewrite minus_one_term by auto. exact (run_more r o E l [] [t]).
  - rewrite run_term by (try discriminate; apply more_end_p; auto). rewrite one_l, abs_term by auto. exact (run_more r o E l [] [t]).
Qed.
(** Reading a piece. *)
Lemma par_value l q : sum_mul l [(1, q)] = map (fun t => (fst t, snd t ++ q)) l.
Proof. induction l as [|t l IH]; [reflexivity|]. cbn [map]. rewrite <- IH. unfold sum_mul. cbn [flat_map map app]. f_equal. unfold rmul. cbn [fst snd]. f_equal. lia. Qed.
Lemma run_piece p r d w o : piece_ok p -> w <> Sign -> ends_p r -> run (toks_piece p ++ r) (Frame d (if piece_neg p then minus_one_s else one_s) w) o = run r (Frame d (piece_value p) Sign) o.
Proof.
  intros J H E. destruct p as [t|l q]; cbn [toks_piece piece_neg piece_value].
  - rewrite run_term by auto. destruct (Z.ltb_spec (fst t) 0) as [N|N]; [rewrite minus_one_term by auto|rewrite one_l, abs_term by auto]; reflexivity.
  - destruct J as (NE & IT & NQ & IQ). cbn [app]. rewrite <- app_assoc. cbn [run]. assert (X : f_want (Frame d one_s w) <> Sign) by exact H.
    destruct (run_sum l ((Close :: W TStar :: map W (toks_mono q)) ++ r) (Frame d one_s w :: o) NE I) as (d1 & c1 & R & Q).
    assert (Y : run (map W (toks_sum l) ++ (Close :: W TStar :: map W (toks_mono q)) ++ r) start (Frame d one_s w :: o) = run r (Frame d (map (fun t => (fst t, snd t ++ q)) l) Sign) o).
    { rewrite R. cbn [app run f_want f_done f_cur]. rewrite Q. rewrite put_ok by auto. cbn [run f_want f_done f_cur]. destruct q as [|p q]; [congruence|]. rewrite run_mono by (auto; discriminate). rewrite one_l, par_value. reflexivity. }
    cbn [f_want]. destruct w; [exact Y|exact Y|congruence].
Qed.
Lemma pieces_end l : ends_p (toks_pieces l).
Proof. destruct l as [|p l]; [exact I|]. unfold toks_pieces. cbn [flat_map]. destruct (piece_neg p); exact I. Qed.
Lemma run_pieces : forall l d c, Forall piece_ok l -> run (toks_pieces l) (Frame d c Sign) [] = Some (d ++ c ++ flat_map piece_value l).
Proof.
  induction l as [|p l IH]; intros d c F; [cbn; rewrite app_nil_r; reflexivity|]. inversion F; subst. unfold toks_pieces. cbn [flat_map]. fold (toks_pieces l). rewrite <- app_comm_cons.
  assert (X : run ((if piece_neg p then W TMinus else W TPlus) :: toks_piece p ++ toks_pieces l) (Frame d c Sign) [] = run (toks_piece p ++ toks_pieces l) (Frame (d ++ c) (if piece_neg p then minus_one_s else one_s) Factor) []) by (destruct (piece_neg p); reflexivity).
  rewrite X. rewrite (run_piece p _ _ Factor _ H1 ltac:(discriminate) (pieces_end l)). rewrite IH by auto. rewrite <- app_assoc. reflexivity.
Qed.
Lemma read_pieces l : l <> [] -> Forall piece_ok l -> read_expression (sum_text (map piece_text l)) = Some (flat_map piece_value l).
Proof.
  intros NE F. destruct l as [|p l]; [congruence|]. inversion F; subst. unfold read_expression. cbn [map sum_text]. destruct (piece_sign p H1) as [E _]. rewrite E.
  assert (X : lex_p None (((if piece_neg p then "-" else "") ++ piece_unsigned p) ++ more_terms (map piece_text l)) = Some ((if piece_neg p then [W TMinus] else []) ++ toks_piece p ++ toks_pieces l)).
  { rewrite app_s_assoc. destruct (piece_neg p); cbn [append]; [rewrite (lexp_sign "-" TMinus) by auto|]; rewrite lexp_piece by (auto; apply pieces_stop; auto); rewrite lexp_more by auto; reflexivity. }
  rewrite X. assert (Y : run ((if piece_neg p then [W TMinus] else []) ++ toks_piece p ++ toks_pieces l) start [] = run (toks_pieces l) (Frame [] (piece_value p) Sign) []).
  { destruct (piece_neg p) eqn:EN; cbn [app].
    - cbn [run start f_want f_done]. pose proof (run_piece p (toks_pieces l) [] Factor [] H1 ltac:(discriminate) (pieces_end l)) as R. rewrite EN in R. exact R.
    - pose proof (run_piece p (toks_pieces l) [] Start [] H1 ltac:(discriminate) (pieces_end l)) as R. rewrite EN in R. exact R. }
  rewrite Y, run_pieces by auto. reflexivity.
Qed.

(** * Nested texts are sums of pieces *)
Lemma mono_app : forall p q, p <> [] -> q <> [] -> monomial_text (p ++ q) = (monomial_text p ++ "*" ++ monomial_text q)%string.
Proof.
  induction p as [|a p IH]; intros q NP NQ; [congruence|]. destruct p as [|b p].
  - destruct q as [|c q]; [congruence|]. cbn [app]. rewrite mono_cons. reflexivity.
  - change ((a :: b :: p) ++ q) with (a :: b :: (p ++ q)). rewrite !mono_cons. change (b :: p ++ q) with ((b :: p) ++ q). rewrite IH by (auto; discriminate). rewrite !app_s_assoc. reflexivity.
Qed.
Lemma not_one t : begins_letter t -> (t =? "-1")%string = false.
Proof. intros L. apply String.eqb_neq. intros ->. discriminate L. Qed.
Lemma rterm_product z p q : ident_powers p -> ident_powers q -> q <> [] -> product_text "*" (rterm_text (z, p)) (monomial_text q) = rterm_text (z, p ++ q).
Proof.
  intros IP IQ NQ. unfold rterm_text. cbn [fst snd]. destruct p as [|a p]; [reflexivity|].
  assert (LP : begins_letter (monomial_text (a :: p))) by (inversion IP; subst; apply mono_letter; auto).
  assert (LQ : begins_letter (monomial_text q)) by (destruct q as [|b q]; [congruence|]; inversion IQ; subst; apply mono_letter; auto).
  rewrite mono_app by (auto; discriminate). set (P := monomial_text (a :: p)) in *. set (Q := monomial_text q) in *. unfold product_text.
  assert (PQ : begins_letter (P ++ "*" ++ Q)) by (apply letter_app; auto). rewrite (letter_not_one P LP), (letter_not_one Q LQ), (letter_not_one _ PQ). destruct (decimal z =? "1")%string.
  - rewrite (letter_not_one P LP), (not_one P LP). reflexivity.
  - destruct (decimal z =? "-1")%string.
    + replace ("-" ++ P =? "1")%string with false by reflexivity. replace ("-" ++ P =? "-1")%string with false; [reflexivity|]. symmetry. apply String.eqb_neq. cbn [append]. intros X. inversion X as [Y]. rewrite Y in LP. discriminate LP.
    + assert (N : forall d, d = "1"%string \/ d = "-1"%string -> (decimal z ++ "*" ++ P =? d)%string = false).
      { intros d D. apply String.eqb_neq. intros X. destruct P as [|ch P']; [contradiction|]. destruct (decimal z) as [|c1 [|c2 s]]; cbn [append] in X; destruct D as [-> | ->]; try discriminate X. destruct s; discriminate X. }
      rewrite !N by auto. rewrite !app_s_assoc. reflexivity.
Qed.
Lemma piece_ne p : piece_ok p -> piece_text p <> ""%string.
Proof. destruct p as [t|l q]; intros J; [apply rterm_text_ne; exact J|discriminate]. Qed.
Lemma minus_app t s : t <> ""%string -> begins_minus (t ++ s) = begins_minus t.
Proof. destruct t; [congruence|reflexivity]. Qed.
Lemma more_app : forall l m, more_terms (l ++ m) = (more_terms l ++ more_terms m)%string.
Proof. induction l as [|t l IH]; intros m; [reflexivity|]. cbn [app more_terms]. rewrite IH. destruct (begins_minus t); rewrite !app_s_assoc; reflexivity. Qed.
Lemma more_sum l : l <> [] -> Forall (fun t => t <> ""%string) l -> forall m, more_terms (sum_text l :: m) = (more_terms l ++ more_terms m)%string.
Proof.
  intros NE F m. destruct l as [|t l]; [congruence|]. inversion F; subst. cbn [sum_text more_terms]. rewrite minus_app by auto. destruct (begins_minus t); rewrite !app_s_assoc; reflexivity.
Qed.
Lemma sum_flat {A} (g : A -> list piece) (f : A -> string) : forall l, (forall a, In a l -> f a = sum_text (map piece_text (g a)) /\ g a <> [] /\ Forall piece_ok (g a)) ->
  more_terms (map f l) = more_terms (map piece_text (flat_map g l)) /\ sum_text (map f l) = sum_text (map piece_text (flat_map g l)).
Proof.
  assert (M : forall l, (forall a, In a l -> f a = sum_text (map piece_text (g a)) /\ g a <> [] /\ Forall piece_ok (g a)) -> more_terms (map f l) = more_terms (map piece_text (flat_map g l))).
  { induction l as [|a l IH]; intros H; [reflexivity|]. destruct (H a (or_introl eq_refl)) as (E & NE & F). cbn [map flat_map]. rewrite map_app, more_app, E.
    rewrite more_sum; [rewrite IH by (intros; apply H; right; auto); reflexivity|destruct (g a); [congruence|discriminate]|].
    apply Forall_forall. intros t T. apply in_map_iff in T as (p & <- & J). apply piece_ne. rewrite Forall_forall in F. apply F. exact J. }
  intros l H. split; [apply M; exact H|]. destruct l as [|a l]; [reflexivity|]. destruct (H a (or_introl eq_refl)) as (E & NE & F). cbn [map flat_map sum_text]. rewrite M by (intros; apply H; right; auto). rewrite E.
  destruct (g a) as [|p ps]; [congruence|]. cbn [app map sum_text]. rewrite map_app, more_app, !app_s_assoc. reflexivity.
Qed.

Section Nested.
Context {K Tag K2 Tag2 : Type} (KO : key_ops K) (KS : key_sem K) (KO2 : key_ops K2) (KS2 : key_sem K2).
Context (kt : K -> symbol_set -> res string) (KP : key_prints KS kt) (kt2 : K2 -> symbol_set -> res string) (KP2 : key_prints KS2 kt2).
Notation inner := (series K2 Z Tag2).
(** The terms of a polynomial with polynomial coefficients, multiplied out: the number, the powers of the coefficient's symbols, the powers of its own. *)
Definition expanded_terms (x : series K inner Tag) : list rterm :=
  flat_map (fun kc => map (fun t => (fst t, snd t ++ powers (s_ss x) (ks_exps KS (len (s_ss x)) (fst kc)))) (shown_terms KS2 (snd kc))) (terms x).
Definition pieces (q : list (string * Z)) (l : list rterm) : list piece :=
  match q, l with [], _ => map Flat l | _, [t] => [Flat (fst t, snd t ++ q)] | _, _ => [Par l q] end.
Lemma pieces_value q l : flat_map piece_value (pieces q l) = map (fun t => (fst t, snd t ++ q)) l.
Proof.
  destruct q as [|p q].
  - cbn [pieces]. induction l as [|[z m] l IH]; [reflexivity|]. cbn [map flat_map piece_value app fst snd]. rewrite IH, app_nil_r. reflexivity.
  - destruct l as [|t [|u l]]; cbn [pieces flat_map piece_value]; rewrite ?app_nil_r; reflexivity.
Qed.
Lemma pieces_fine q l : l <> [] -> ident_terms l -> ident_powers q -> pieces q l <> [] /\ Forall piece_ok (pieces q l).
Proof.
  intros NE IT IQ. destruct q as [|p q].
  - cbn [pieces]. split; [destruct l; [congruence|discriminate]|]. apply Forall_forall. intros x X. apply in_map_iff in X as (t & <- & T). unfold ident_terms in IT. rewrite Forall_forall in IT. apply IT. exact T.
  - destruct l as [|t [|u l]]; [congruence| |]; cbn [pieces]; (split; [discriminate|]); apply Forall_cons; try apply Forall_nil.
    + cbn [piece_ok snd]. inversion IT; subst. apply Forall_app. auto.
    + split; [exact NE|]. split; [exact IT|]. split; [discriminate|exact IQ].
Qed.
Lemma nested_reads (CO : cf_ops inner) (x : series K inner Tag) : wf KO KS CO x -> Forall identifier (s_ss x) -> (len (terms x) <= 50)%nat ->
  (forall k c, In (k, c) (terms x) -> wf KO2 KS2 Z_cf c /\ Forall identifier (s_ss c) /\ terms c <> [] /\ (len (terms c) <= 50)%nat) ->
  exists t, stream_terms (series_cf_text (fun z => Ok (z_string z)) kt2 false) kt false x = Ok t /\
    read_expression t = Some (match terms x with [] => [(0, [])] | _ => expanded_terms x end).
Proof.
  intros Wx F L H. destruct (terms x) as [|kc0 l0] eqn:ET.
  - exists "0"%string. split; [|reflexivity]. unfold stream_terms. replace (series_empty x) with true by (symmetry; apply empty_terms; exact ET). reflexivity.
  - assert (NE : terms x <> []) by (rewrite ET; discriminate). rewrite <- ET in L, H. clear ET kc0 l0.
    eexists. split; [apply (nested_ok KO KS KO2 KS2 kt KP kt2 KP2 CO x Wx F NE)|]; [intros k c J; destruct (H k c J) as (A & B & _); auto|].
    replace (50 <? len (terms x))%nat with false by (symmetry; apply Nat.ltb_ge; exact L). rewrite app_nil_r, firstn_all2 by exact L.
    set (g := fun kc : K * inner => pieces (powers (s_ss x) (ks_exps KS (len (s_ss x)) (fst kc))) (shown_terms KS2 (snd kc))).
    assert (G : forall a, In a (terms x) -> nested_product KS2 (snd a) (monomial_text (powers (s_ss x) (ks_exps KS (len (s_ss x)) (fst a)))) = sum_text (map piece_text (g a)) /\ g a <> [] /\ Forall piece_ok (g a)).
    { intros [k c] J. destruct (H k c J) as (WC & FC & NC & LC). unfold g. cbn [fst snd]. set (q := powers (s_ss x) (ks_exps KS (len (s_ss x)) k)).
      assert (IQ : ident_powers q) by (apply powers_ident; exact F). pose proof (shown_ident KS2 c FC) as IT.
      assert (NS : shown_terms KS2 c <> []) by (unfold shown_terms; destruct (terms c); [congruence|discriminate]).
      assert (LS : len (shown_terms KS2 c) = len (terms c)) by (unfold shown_terms; apply map_length).
      split; [|apply pieces_fine; auto]. unfold nested_product. rewrite inner_shown by exact NC.
      replace (50 <? len (terms c))%nat with false by (symmetry; apply Nat.ltb_ge; exact LC). rewrite app_nil_r, firstn_all2 by lia. rewrite <- LS.
      destruct q as [|p q'] eqn:EQ.
      - cbn [monomial_text]. rewrite String.eqb_refl. cbn [pieces]. rewrite map_map. reflexivity.
      - assert (LQ : begins_letter (monomial_text (p :: q'))) by (inversion IQ; subst; apply mono_letter; auto). rewrite (letter_not_one _ LQ).
        destruct (shown_terms KS2 c) as [|t [|u l]] eqn:ES; [congruence| |].
        + replace (1 <? len [t])%nat with false by reflexivity. cbn [pieces map sum_text more_terms piece_text]. rewrite !app_s_nil. destruct t as [z m]. inversion IT; subst. apply rterm_product; auto. discriminate.
        + replace (1 <? len (t :: u :: l))%nat with true by reflexivity. cbn [pieces map]. cbn [sum_text more_terms]. rewrite app_s_nil. unfold piece_text at 1. unfold product_text. rewrite (letter_not_one _ LQ).
          cbn [map sum_text]. rewrite !app_s_assoc. reflexivity. }
    rewrite (proj2 (sum_flat g _ (terms x) G)).
    assert (E : expanded_terms x = flat_map piece_value (flat_map g (terms x))).
    { unfold expanded_terms. clear -g. induction (terms x) as [|a l IH]; [reflexivity|]. cbn [flat_map]. rewrite flat_map_app, <- IH. unfold g at 1. rewrite pieces_value. reflexivity. }
    destruct (terms x) as [|a l] eqn:ET; [congruence|]. rewrite E. apply read_pieces.
    + destruct (G a (or_introl eq_refl)) as (_ & NG & _). cbn [flat_map]. destruct (g a); [congruence|discriminate].
    + apply Forall_forall. intros p P. apply in_flat_map in P as (b & Jb & Jp). destruct (G b Jb) as (_ & _ & FG). rewrite Forall_forall in FG. apply FG. exact Jp.
Qed.
End Nested.

(** C95. The text of a polynomial with polynomial coefficients (none of them zero, not more than fifty terms each), read as an arithmetic expression, denotes the sum of its
    terms: coefficient times monomial, multiplied out. *)
Theorem nested_text_reads_back : forall {Tag Tag2} D D2 CO (x : series Z (series Z Z Tag2) Tag), packable D -> packable D2 -> wf (pm_ops D) (pm_sem D) CO x -> Forall identifier (s_ss x) ->
  (len (terms x) <= 50)%nat ->
  (forall k c, In (k, c) (terms x) -> wf (pm_ops D2) (pm_sem D2) Z_cf c /\ Forall identifier (s_ss c) /\ terms c <> [] /\ (len (terms c) <= 50)%nat) ->
  exists t, stream_terms (series_cf_text (fun z => Ok (z_string z)) (pm_stream D2) false) (pm_stream D) false x = Ok t /\
    read_expression t = Some (match terms x with [] => [(0, [])] | _ => expanded_terms (pm_sem D) (pm_sem D2) x end).
Proof. intros Tag Tag2 D D2 CO x HD HD2 Wx F L H. apply (nested_reads (pm_ops D) (pm_sem D) (pm_ops D2) (pm_sem D2) (pm_stream D) (pm_prints D HD) (pm_stream D2) (pm_prints D2 HD2) CO); auto. Qed.
Theorem dpm_nested_text_reads_back : forall {Tag Tag2} D ps D2 ps2 CO (x : series dpm (series dpm Z Tag2) Tag), packable D -> psize_ok D ps -> packable D2 -> psize_ok D2 ps2 ->
  wf (dpm_ops D ps) (dpm_sem D ps) CO x -> Forall identifier (s_ss x) -> (len (terms x) <= 50)%nat ->
  (forall k c, In (k, c) (terms x) -> wf (dpm_ops D2 ps2) (dpm_sem D2 ps2) Z_cf c /\ Forall identifier (s_ss c) /\ terms c <> [] /\ (len (terms c) <= 50)%nat) ->
  exists t, stream_terms (series_cf_text (fun z => Ok (z_string z)) (dpm_stream D2 ps2) false) (dpm_stream D ps) false x = Ok t /\
    read_expression t = Some (match terms x with [] => [(0, [])] | _ => expanded_terms (dpm_sem D ps) (dpm_sem D2 ps2) x end).
Proof.
  intros Tag Tag2 D ps D2 ps2 CO x HD G HD2 G2 Wx F L H.
  apply (nested_reads (dpm_ops D ps) (dpm_sem D ps) (dpm_ops D2 ps2) (dpm_sem D2 ps2) (dpm_stream D ps) (dpm_prints D ps HD G) (dpm_stream D2 ps2) (dpm_prints D2 ps2 HD2 G2) CO); auto.
Qed.
Print Assumptions nested_text_reads_back.
Print Assumptions dpm_nested_text_reads_back.

(** Non-vacuity: (a+b)*x-2*a meets the hypotheses, and its text reads as 1*a*x + 1*b*x - 2*a. *)
Example nested_read_hyps : wf exK exS nested_cf nested_x /\ Forall identifier (s_ss nested_x) /\ (len (terms nested_x) <= 50)%nat /\
  (forall k c, In (k, c) (terms nested_x) -> wf exK exS Z_cf c /\ Forall identifier (s_ss c) /\ terms c <> [] /\ (len (terms c) <= 50)%nat).
Proof.
  destruct nested_hyps as (A & B & _ & D). split; [exact A|]. split; [exact B|]. split; [cbn; lia|]. intros k c J. destruct (D k c J) as [E F]. split; [exact E|]. split; [exact F|].
  clear D E F. destruct J as [J|[J|[]]]; apply (f_equal snd) in J; cbn [snd] in J; subst c; cbn; split; try discriminate; lia.
Qed.
Example nested_read_ex : read_expression "(a+b)*x-2*a" = Some [(1, [("a", 1); ("x", 1)]); (1, [("b", 1); ("x", 1)]); (-2, [("a", 1)])]%string /\
  expanded_terms (pm_sem kd_int64) (pm_sem kd_int64) nested_x = [(1, [("a", 1); ("x", 1)]); (1, [("b", 1); ("x", 1)]); (-2, [("a", 1)])]%string.
Proof. split; vm_compute; reflexivity. Qed.
