(** Property C109: the substitution of polynomials in a polynomial, coefficient by coefficient.  Vocabulary: PSSubsSpec.v ([f_subst]: x with the values of the map in
    place of its symbols, as a formal sum of monomials; [f_coef]), SeriesSpec.v, P_Pow.v ([is_power]). *)
From Coq Require Import ZArith List Bool String Arith Sorted Permutation Lia Ring Ring_theory.
From Verif Require Import Base KpackModel KpackSpec IntModel IntSpec SymModel SymSpec SymProofs P_Sym PMonModel PMonSpec KeyOps KeyInst
  SeriesModel SeriesModel2 SeriesSpec SeriesProofs SeriesProofs2 SeriesProofs3 SeriesProofs4 SeriesProofs5 SeriesProofs6 Lin EvalSpec SeriesEval SeriesProofs7 CfInst P_Series P_Series2
  PolyModel PolyModel2 PolySpec PolyProofs7 PolyProofs8 PolyProofs9 P_Poly P_Poly2 PowProofs PowProofs2 P_Pow DiffProofs SubsSpec SubsProofs P_Subs PSSubsSpec PSSubs.
From Verif Require P_Rec6.
Import ListNotations.
Open Scope Z_scope.
Open Scope res_scope.
Local Notation len := List.length.

Section SX.
Context {K C Tag : Type} (KO : key_ops K) (KS : key_sem K) (CO : cf_ops C) (PO : tbl_policy (K * C)) (TO : tag_ops Tag).
Context (KL : key_laws KO KS) (CL : cf_laws CO) (FN : ks_fits KS []).
Notation series := (series K C Tag).
Notation WF := (wf KO KS CO).
Notation coef := (coef KS CO).
Notation exps s k := (ks_exps KS (List.length (s_ss s)) k).
Notation "0c" := (c_zero CO).
Infix "+c" := (c_add CO) (at level 50, left associativity).
Infix "*c" := (c_mul CO) (at level 40, left associativity).
Add Ring CringSX : (cl_ring _ CL).
Notation vterm := (list Z * C)%type.
Notation vt := (vt KS).
Notation same := (same CO).

Lemma fx_mul a b : f_mul CO a b = vprod CO a b. Proof. reflexivity. Qed.
Lemma fx_pow us (u : series) n : f_pow CO (len us) (f_of KS us u) n = powl KS CO us u n.
Proof. induction n as [|n IH]; [reflexivity|]. cbn [f_pow powl]. rewrite IH. reflexivity. Qed.
Lemma fx_coef a ws : f_coef CO a ws = psum CO (fun v => vec_eqb v ws) a. Proof. reflexivity. Qed.

Variables (us : symbol_set) (E : mul_env K C Tag) (B : symbol_set) (sm : symbol_map series) (vpow : series -> Z -> res series).
Hypothesis (EO : env_ok KO KS E) (HB : sorted_set B) (SZ : Z.of_nat (len B + len B) <= imax size_t).
Hypothesis (HU : sorted_set us) (IU : incl B us).
Definition lenok (l : list vterm) : Prop := forall e, In e l -> len (fst e) = len us.
Lemma same_on (a b : list vterm) : lenok a -> lenok b -> (forall ws, len ws = len us -> psum CO (fun v => vec_eqb v ws) a = psum CO (fun v => vec_eqb v ws) b) -> same a b.
Proof.
  intros A D H. apply (same_eqb CO CL). intros ws. destruct (Nat.eq_dec (len ws) (len us)) as [L|L]; [apply H; exact L|].
  assert (Z : forall l : list vterm, lenok l -> psum CO (fun v => vec_eqb v ws) l = 0c).
  { induction l as [|e l IH]; intros X; [reflexivity|]. rewrite (psum_cons CO CL), IH by (intros ? ?; apply X; right; auto). unfold vec_eqb. destruct (list_eq_dec _ _ _) as [EQ|]; [|cbn [ifP]; ring]. exfalso. apply L. rewrite <- EQ. apply X. left. reflexivity. }
  rewrite !Z; auto.
Qed.
(** p is the formal sum L. *)
Definition meansx (p : series) (L : list vterm) : Prop := WF p /\ incl (s_ss p) B /\ same (vt us p) L.
Definition subsx_exn (e : exn) : Prop := e = overflow_error \/ e = safe_cast_failure \/ exists z u n, In (z, u) sm /\ vpow u n = Throw e.

Lemma lenB (s : series) : WF s -> incl (s_ss s) B -> (len (s_ss s) <= len B)%nat.
Proof. intros W I. apply NoDup_incl_length; auto. apply sorted_set_nodup, (wf_ss _ _ _ _ W). Qed.
Lemma cov (s : series) : incl (s_ss s) B -> covers us s.
Proof. intros I. split; [exact HU|]. eapply incl_tran; eauto. Qed.
Lemma meansx_mul (a b : series) La Lb : meansx a La -> meansx b Lb ->
  (exists r, poly_mul KO CO PO TO E a b = Ok r /\ meansx r (vprod CO La Lb)) \/ (exists e, poly_mul KO CO PO TO E a b = Throw e /\ subsx_exn e).
Proof.
  intros (Wa & Ia & Ua) (Wb & Ib & Ub).
  assert (SZ' : Z.of_nat (len (s_ss a) + len (s_ss b)) <= imax size_t) by (pose proof (lenB a Wa Ia); pose proof (lenB b Wb Ib); lia).
  destruct (mul_exact KO KS CO PO TO KL CL E a b EO Wa Wb SZ') as (u & [SU U] & [(r & ER & Wr & SR & _)|[[X|X] _]]).
  - left. exists r. split; [exact ER|]. assert (Ir : incl (s_ss r) B) by (intros z I; rewrite SR in I; apply U in I as [I|I]; auto). split; [exact Wr|]. split; [exact Ir|].
    eapply same_trans; [apply (mul_same KO KS CO PO TO KL CL E a b r us EO Wa Wb SZ' ER HU); eapply incl_tran; eauto|]. apply (same_prod CO CL); auto.
  - right. exists overflow_error. split; [exact X|]. left. reflexivity.
  - right. exists safe_cast_failure. split; [exact X|]. right. left. reflexivity.
Qed.
Lemma meansx_scalar (a : series) L c : meansx a L -> meansx (series_scalar_mul KO CO a c) (map (fun e => (fst e, snd e *c c)) L).
Proof.
  intros (Wa & Ia & U). destruct (scalar_mul_ok KO KS CO KL CL a c Wa) as (Wp & Sp & _). split; [exact Wp|]. split; [rewrite Sp; exact Ia|]. eapply same_trans; [apply (scalar_vt KO KS CO KL CL a c us Wa)|].
  assert (PM : forall Q l, psum CO Q (map (fun e : vterm => (fst e, snd e *c c)) l) = psum CO Q l *c c) by (intros Q l; apply (SeriesProofs.psum_map CO CL Q (fun v => v) (fun c0 => c0 *c c) CO l); intros; ring).
  intros Q. rewrite !PM, (U Q). reflexivity.
Qed.
Lemma meansx_add (r p : series) Lr Lp : meansx r Lr -> meansx p Lp ->
  (exists r', series_in_place_addsub KO CO PO CO PO TO true (fun c => c) r false p = Ok r' /\ meansx r' (Lr ++ Lp)) \/
  (exists e, series_in_place_addsub KO CO PO CO PO TO true (fun c => c) r false p = Throw e /\ subsx_exn e).
Proof.
  intros (Wa & Ia & Ua) (Wb & Ib & Ub).
  assert (SZ' : Z.of_nat (len (s_ss r) + len (s_ss p)) <= imax size_t) by (pose proof (lenB r Wa Ia); pose proof (lenB p Wb Ib); lia).
  destruct (in_place_ok KO KS CO CO PO PO TO KL CL CL (fun c => c) eq_refl (fun _ _ => eq_refl) true r false p Wa Wb SZ' ltac:(discriminate)) as [(r' & E' & Wr' & U' & L' & D' & _)|[H _]].
  - left. exists r'. assert (Ir' : incl (s_ss r') B) by (intros z J; apply U' in J as [J|J]; auto). split; [exact E'|]. split; [exact Wr'|]. split; [exact Ir'|].
    intros Q. rewrite vt_psum, D', (psum_app CO CL), <- Ua, <- Ub, !vt_psum. reflexivity.
  - right. destruct H as [H|H]; rewrite H; eexists; (split; [reflexivity|]); [left|right; left]; reflexivity.
Qed.
Lemma meansx_same (p : series) L L' : meansx p L -> same L L' -> meansx p L'.
Proof. intros (W & I & U) S. split; [exact W|]. split; [exact I|]. eapply same_trans; eauto. Qed.

Lemma vprodx_single (a : list vterm) v c : vprod CO a [(v, c)] = map (fun e => (vadd (fst e) v, snd e *c c)) a.
Proof. induction a as [|e a IH]; [reflexivity|]. rewrite vprod_cons, IH. reflexivity. Qed.
Lemma vprodx_unit (a : list vterm) : lenok a -> vprod CO a (f_one CO (len us)) = a.
Proof.
  intros H. unfold f_one. rewrite vprodx_single. rewrite <- (map_id a) at 2. apply map_ext_in. intros [v c] I. specialize (H _ I). cbn [fst snd] in *. rewrite <- H, vadd_zeros. f_equal. ring.
Qed.
Notation powers es ss' ss := (fold_right (fun z acc => match assoc sm z with Some u => f_mul CO (f_pow CO (len us) (f_of KS us u) (Z.to_nat (expo ss es z))) acc | None => acc end) (f_one CO (len us)) ss').
Lemma foldx_picked ss es : NoDup ss -> len es = len ss -> forall ss' pre acc, ss = pre ++ ss' -> lenok acc ->
  fold_left (vprod CO) (map (fun a => powl KS CO us (snd a) (Z.to_nat (nth (fst a) es 0))) (picked sm ss' (len pre))) acc = vprod CO acc (powers es ss' ss).
Proof.
  intros ND L. induction ss' as [|z ss' IH]; intros pre acc EQ LA; cbn [picked fold_right].
  - cbn [map fold_left]. symmetry. apply vprodx_unit. exact LA.
  - assert (EQ' : ss = (pre ++ [z]) ++ ss') by (rewrite <- app_assoc; exact EQ). assert (LP : len (pre ++ [z]) = S (len pre)) by (rewrite app_length; cbn; lia).
    destruct (assoc sm z) as [u|]; [|rewrite <- LP; apply IH; auto]. cbn [map fold_left fst snd]. rewrite <- LP.
    assert (EX : nth (len pre) es 0 = expo ss es z).
    { symmetry. apply (expo_nth ss es (len pre) z); [exact ND| |apply nth_error_nth'; rewrite L, EQ, app_length; cbn [List.length]; lia]. rewrite EQ. rewrite nth_error_app2 by lia. rewrite Nat.sub_diag. reflexivity. }
    rewrite EX, IH; [|exact EQ'|intros e I; apply (vprod_len CO (len us) acc _ LA (powl_len KS CO us u _) e I)]. rewrite (vprod_assoc CO CL), <- fx_pow. reflexivity.
Qed.

Hypothesis (Sm : sorted_set (map fst sm)).
Hypothesis (VP : forall z u n, In (z, u) sm ->
  (exists p, vpow u (Z.of_nat n) = Ok p /\ WF p /\ incl (s_ss p) B /\ forall ws, len ws = len us -> coef us p ws = power_coef KS CO us u n ws) \/
  (exists e, vpow u (Z.of_nat n) = Throw e)).
Notation vmul := (fun a b : res series => a <- a ;; b <- b ;; poly_mul KO CO PO TO E a b).
Lemma meansx_power z u n : In (z, u) sm -> (exists p, vpow u (Z.of_nat n) = Ok p /\ meansx p (powl KS CO us u n)) \/ (exists e, vpow u (Z.of_nat n) = Throw e /\ subsx_exn e).
Proof.
  intros J. destruct (VP z u n J) as [(p & EP & Wp & Ip & Cp)|(e & EP)]; [left|right; exists e; split; [exact EP|right; right; eauto]].
  exists p. split; [exact EP|]. split; [exact Wp|]. split; [exact Ip|]. apply same_on; [intros e I; apply (vt_len KS us p e I)|exact (powl_len KS CO us u n)|].
  intros ws L. rewrite vt_psum, <- coef_nden, (Cp ws L). symmetry. apply (powl_coef KS CO CL). exact L.
Qed.
Lemma foldx_throw (l : list (res series)) e : fold_left vmul l (Throw e) = Throw e.
Proof. induction l as [|a l IH]; [reflexivity|]. cbn [fold_left bind]. exact IH. Qed.
Lemma foldx_powers (l : list (nat * series)) es : (forall i u, In (i, u) l -> exists z, In (z, u) sm) -> (forall i u, In (i, u) l -> 0 <= nth i es 0) -> forall a La, meansx a La ->
  (exists p, fold_left vmul (map (fun a => vpow (snd a) (nth (fst a) es 0)) l) (Ok a) = Ok p /\ meansx p (fold_left (vprod CO) (map (fun a => powl KS CO us (snd a) (Z.to_nat (nth (fst a) es 0))) l) La)) \/
  (exists e, fold_left vmul (map (fun a => vpow (snd a) (nth (fst a) es 0)) l) (Ok a) = Throw e /\ subsx_exn e).
Proof.
  induction l as [|[i u] l IH]; intros IL NN a La H; [left; exists a; split; [reflexivity|exact H]|]. cbn [map fold_left fst snd].
  destruct (IL i u (or_introl eq_refl)) as (z & J). pose proof (NN i u (or_introl eq_refl)) as N0. replace (vpow u (nth i es 0)) with (vpow u (Z.of_nat (Z.to_nat (nth i es 0)))) by (rewrite Z2Nat.id by exact N0; reflexivity).
  destruct (meansx_power z u (Z.to_nat (nth i es 0)) J) as [(p & EP & MP)|(e & EP & X)]; rewrite EP; cbn [bind].
  - destruct (meansx_mul a p La _ H MP) as [(r & ER & MR)|(e & ER & X)]; rewrite ER; cbn [bind].
    + apply IH; [intros; eapply IL; right; eauto|intros; eapply NN; right; eauto|exact MR].
    + right. exists e. split; [apply foldx_throw|exact X].
  - right. exists e. split; [apply foldx_throw|exact X].
Qed.
Lemma meansx_one : exists o, series_of_cf KO CO PO TO (c_one CO) [] = Ok o /\ meansx o (f_one CO (len us)).
Proof.
  destruct (of_cf_ok KO KS CO PO TO KL CL (c_one CO) [] ltac:(constructor) FN) as (o & EO' & Wo & So & To & _ & T). exists o. split; [exact EO'|]. split; [exact Wo|]. split; [rewrite So; intros ? []|].
  intros Q. unfold SeriesEval.vt. rewrite T, So. destruct (c_is_zero CO (c_one CO)) eqn:EZ.
  - apply (cl_zero _ CL) in EZ. unfold f_one. rewrite (psum_cons CO CL). cbn [map fst snd]. rewrite EZ. rewrite !psum_nil. destruct (Q _); cbn [ifP]; ring.
  - unfold f_one. cbn [map]. rewrite !(psum_cons CO CL), !psum_nil. cbn [fst snd]. replace (spread [] us (ks_exps KS (len (@nil string)) (k_of_ss KO []))) with (repeat 0 (len us)); [reflexivity|].
    destruct (kl_unit _ _ KL [] FN) as [_ XU]. rewrite XU. symmetry. apply (P_Rec6.spread_zeros [] us).
Qed.
Lemma lenok_one : lenok (f_one CO (len us)).
Proof. intros e [<-|[]]. cbn [fst]. apply repeat_length. Qed.
Lemma lenok_powers es ss ss' : lenok (powers es ss' ss).
Proof.
  induction ss' as [|z ss' IH]; cbn [fold_right]; [apply lenok_one|]. destruct (assoc sm z) as [u|] eqn:A; [|exact IH]. rewrite fx_mul, fx_pow. intros e I. apply (vprod_len CO (len us) _ _ (powl_len KS CO us u _) IH e I).
Qed.
Lemma vprodx_scale (a : list vterm) v c : same (vprod CO (map (fun e => (fst e, snd e *c c)) a) [(v, c_one CO)]) (vprod CO a [(v, c)]).
Proof.
  intros Q. rewrite !vprodx_single, map_map. induction a as [|e a IH]; [reflexivity|]. cbn [map]. rewrite !(psum_cons CO CL), IH. cbn [fst snd]. destruct (Q _); cbn [ifP]; ring.
Qed.
Lemma subsx_ok (x : series) : WF x -> incl (s_ss x) B -> (forall k c z, In (k, c) (terms x) -> In z (map fst sm) -> 0 <= expo (s_ss x) (exps x k) z) ->
  (exists r, subs_poly KO CO PO TO E vpow x sm = Ok r /\ meansx r (f_subst KS CO us sm x)) \/
  (exists e, subs_poly KO CO PO TO E vpow x sm = Throw e /\ subsx_exn e).
Proof.
  intros W IX NX. assert (Hs := wf_ss _ _ _ _ W). unfold subs_poly, poly_subs. unfold set_symbol_set. change (series_empty (series_default TO)) with true. cbn iota. cbn [bind].
  change (set_tag _ (s_tag x)) with (blank x). cbv zeta.
  match goal with |- context [rfold ?f _ _] => set (step := f) end.
  destruct (rfold_inv step (fun done r => meansx r (List.concat (map (f_term KS CO us sm x) done))) (fun q => exists e, q = Throw e /\ subsx_exn e))
    with (l := terms x) (pre := @nil (K * C)) (b := series_default TO : series) as [(r & ER & H)|H].
  - intros b (e & X & _). discriminate X.
  - split; [apply default_wf|]. split; [intros ? []|]. intros Q. reflexivity.
  - cbn [app]. intros p r [k c] q EQ Mr. assert (I : In (k, c) (terms x)) by (rewrite EQ; apply in_or_app; right; left; reflexivity).
    pose proof (wf_valid _ _ _ _ W k c I) as Vk. assert (LE : len (exps x k) = len (s_ss x)) by (apply (kl_len _ _ KL); exact Vk).
    unfold step. cbn [fst snd].
    destruct (kl_subs _ _ KL (res series) series (series_of_cf KO CO PO TO (c_one CO) []) vmul (fun u z => Ok (vpow u z)) vpow k (s_ss x) (sm_intersect_idx sm (s_ss x)) Vk (idx_sorted sm (s_ss x) Sm Hs) (idx_bound sm (s_ss x) Sm Hs)) as (k' & EK & V' & X').
    { reflexivity. }
    rewrite EK. cbn [bind]. destruct meansx_one as (o & EO' & Mo). rewrite EO'. rewrite (idx_zero sm (s_ss x) Sm Hs _ LE) in X'.
    destruct (tmp_ok KO KS CO PO KL CL x k' W V') as (tm & ET & Wt & ST & _ & VT). rewrite ET. cbn [bind].
    rewrite X' in VT.
    assert (Mt : meansx tm [(spread (s_ss x) us (keep sm (s_ss x) (exps x k)), c_one CO)]).
    { split; [exact Wt|]. split; [rewrite ST; exact IX|]. apply VT. }
    destruct (foldx_powers (sm_intersect_idx sm (s_ss x)) (exps x k)) with (a := o) (La := f_one CO (len us)) as [(pv & EP & Mp)|(e & EP & X)].
    + intros i u J. apply (idx_iff sm (s_ss x) Sm Hs) in J as (n & _ & A). exists n. apply assoc_iff; auto. apply sorted_set_nodup; auto.
    + intros i u J. apply (idx_iff sm (s_ss x) Sm Hs) in J as (n & N & A). assert (L : (i < len (exps x k))%nat) by (rewrite LE; apply nth_error_Some; congruence).
      rewrite <- (expo_nth (s_ss x) (exps x k) i n _ (sorted_set_nodup _ Hs) N (nth_error_nth' _ 0 L)). apply (NX k c n I). apply assoc_iff in A; [|apply sorted_set_nodup; auto]. apply (in_map fst) in A. exact A.
    + exact Mo.
    + rewrite EP. cbn [bind].
      assert (Mp' : meansx pv (powers (exps x k) (s_ss x) (s_ss x))).
      { apply (meansx_same pv _ _ Mp). rewrite (idx_picked sm (s_ss x) Sm Hs). pose proof (foldx_picked (s_ss x) (exps x k) (sorted_set_nodup _ Hs) LE (s_ss x) [] (f_one CO (len us)) eq_refl lenok_one) as FP. change (len (@nil string)) with O in FP. rewrite FP.
        intros Q. rewrite (same_swap CO CL). rewrite vprodx_unit by apply lenok_powers. reflexivity. }
      pose proof (meansx_scalar pv _ c Mp') as Mc.
      destruct (meansx_mul _ tm _ _ Mc Mt) as [(pt & EM & Mm)|(e & EM & X)].
      * rewrite EM. cbn [bind]. assert (Mm' : meansx pt (f_term KS CO us sm x (k, c))) by (apply (meansx_same pt _ _ Mm); intros Q; apply vprodx_scale).
        destruct (meansx_add r pt _ _ Mr Mm') as [(r' & E' & Mr')|(e & E' & X)].
        -- left. exists r'. split; [exact E'|]. rewrite map_app, concat_app. cbn [map List.concat]. rewrite List.app_nil_r. exact Mr'.
        -- right. rewrite E'. eauto.
      * right. rewrite EM. cbn [bind]. eauto.
    + right. rewrite EP. cbn [bind]. eauto.
  - left. exists r. split; [exact ER|exact H].
  - right. exact H.
Qed.
End SX.

Section ST.
Context {K C Tag : Type} (KO : key_ops K) (KS : key_sem K) (CO : cf_ops C) (PO : tbl_policy (K * C)) (TO : tag_ops Tag).
Context (KL : key_laws KO KS) (CL : cf_laws CO) (FN : ks_fits KS []).
Notation series := (series K C Tag).
Notation WF := (wf KO KS CO).
Notation coef := (coef KS CO).
Notation exps s k := (ks_exps KS (List.length (s_ss s)) k).

(** A substitution: the map sorted by symbol, with polynomials in the symbols B; x too; the powers given to it are powers; x has no negative power of a symbol of the map. *)
Definition subst_args (E : mul_env K C Tag) (B : symbol_set) (sm : symbol_map series) (vpow : series -> Z -> res series) (x : series) : Prop :=
  env_ok KO KS E /\ sorted_set B /\ Z.of_nat (len B + len B) <= imax size_t /\ sorted_set (map fst sm) /\
  (forall z u, In (z, u) sm -> WF u /\ incl (s_ss u) B) /\
  (forall z u n, In (z, u) sm -> (exists p, vpow u (Z.of_nat n) = Ok p /\ is_power KO KS CO u n p) \/ (exists e, vpow u (Z.of_nat n) = Throw e)) /\
  WF x /\ incl (s_ss x) B /\ (forall k c z, In (k, c) (terms x) -> In z (map fst sm) -> 0 <= expo (s_ss x) (exps x k) z).

(** C109. The substitution of polynomials in a polynomial is, coefficient by coefficient, x with the values of the map in place of its symbols; or an exception of an
    unrepresentable product or sum, or of a power. *)
Theorem subs_poly_exact : forall E B (sm : symbol_map series) vpow x, subst_args E B sm vpow x ->
  (exists r, subs_poly KO CO PO TO E vpow x sm = Ok r /\ WF r /\ incl (s_ss r) B /\
     forall us ws, sorted_set us -> incl B us -> coef us r ws = f_coef CO (f_subst KS CO us sm x) ws) \/
  (exists e, subs_poly KO CO PO TO E vpow x sm = Throw e /\ (e = overflow_error \/ e = safe_cast_failure \/ exists z u n, In (z, u) sm /\ vpow u n = Throw e)).
Proof.
  intros E B sm vpow x (EO & HB & SZ & Sm & VU & VP & W & IX & NX).
  assert (G : forall us, sorted_set us -> incl B us -> forall z u n, In (z, u) sm ->
     (exists p, vpow u (Z.of_nat n) = Ok p /\ WF p /\ incl (s_ss p) B /\ forall ws, len ws = len us -> coef us p ws = power_coef KS CO us u n ws) \/ (exists e, vpow u (Z.of_nat n) = Throw e)).
  { intros us HU IU z u n J. destruct (VP z u n J) as [(p & EP & (Wp & Ip & P))|X]; [left|right; exact X]. destruct (VU z u J) as [Wu Iu]. exists p. split; [exact EP|]. split; [exact Wp|]. split; [eapply incl_tran; eauto|].
    intros ws L. apply P; [split; [exact HU|eapply incl_tran; eauto]|exact L]. }
  destruct (subsx_ok KO KS CO PO TO KL CL FN B E B sm vpow EO SZ HB (incl_refl B) Sm (G B HB (incl_refl B)) x W IX NX) as [(r & ER & (Wr & Ir & _))|(e & ER & X)].
  - left. exists r. split; [exact ER|]. split; [exact Wr|]. split; [exact Ir|]. intros us ws HU IU.
    destruct (subsx_ok KO KS CO PO TO KL CL FN us E B sm vpow EO SZ HU IU Sm (G us HU IU) x W IX NX) as [(r' & ER' & (_ & _ & U))|(e & ER' & _)]; [|congruence].
    assert (r' = r) by congruence. subst r'. rewrite fx_coef, <- U, vt_psum, <- coef_nden. reflexivity.
  - right. exists e. split; [exact ER|exact X].
Qed.
End ST.
Print Assumptions subs_poly_exact.

(** Non-vacuity: 3 a b^2 - 2 a + 7 b with b replaced by itself, the powers computed by pow. *)
Example ex_subst_exact : subst_args exK exS Z_cf (exE true 1) ["a"; "b"]%string [("b"%string, ex_x)] ex_ppow ex_x /\
  exists r, subs_poly exK Z_cf exP Z_tag (exE true 1) ex_ppow ex_x [("b"%string, ex_x)] = Ok r /\ series_size r = 8%nat /\
    coef exS Z_cf ["a"; "b"]%string r [3; 4] = 27 /\ f_coef Z_cf (f_subst exS Z_cf ["a"; "b"]%string [("b"%string, ex_x)] ex_x) [3; 4] = 27 /\
    coef exS Z_cf ["a"; "b"]%string r [1; 2] = 168 /\ f_coef Z_cf (f_subst exS Z_cf ["a"; "b"]%string [("b"%string, ex_x)] ex_x) [1; 2] = 168.
Proof.
  destruct ex_x_wf as (W & S & _). split.
  - split; [exact (exE_ok true 1)|]. split; [repeat constructor|]. split; [vm_compute; discriminate|]. split; [repeat constructor|]. split; [|split; [|split; [exact W|split; [rewrite S; apply incl_refl|]]]].
    + intros z u [J|[]]. apply (f_equal snd) in J. unfold snd in J. rewrite <- J. split; [exact W|rewrite S; apply incl_refl].
    + intros z u n [J|[]]. apply (f_equal snd) in J. unfold snd in J. rewrite <- J. unfold ex_ppow. rewrite (proj2 (Z.ltb_ge (Z.of_nat n) 0)) by lia. rewrite Nat2Z.id.
      destruct (pow_exact exK exS Z_cf exP Z_tag exK_laws Z_cf_laws (pm_fits_nil _) [] (exE true 1) (fun c => Ok (cpower Z_cf c n)) n ex_x ltac:(constructor) (exE_ok true 1) (proj1 ex_pow_arg) (fun c => eq_refl)) as [(r & ER & P)|[[ER|ER] _]]; [left; eauto|right; eauto|right; eauto].
    + intros k c z I _. apply expo_in; [lia|]. exact (ex_x_expos k c I).
  - eexists. split; [vm_compute; reflexivity|]. repeat split; vm_compute; reflexivity.
Qed.
