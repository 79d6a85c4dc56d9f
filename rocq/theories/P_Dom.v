(** Properties C98 and C99: products over coefficients without zero divisors, and the laws of powers.  Vocabulary: SeriesSpec.v ([coef], [covers]), P_Series.v ([partial_degree] is the degree that
    p_degree() reports), PolySpec.v ([cpower]), CalcSpec.v ([int_embedding]), P_Pow.v ([reachable]: the caches of powers left by any earlier calls). *)
From Coq Require Import ZArith List Bool String Arith Sorted Permutation Lia Ring Ring_theory.
From Verif Require Import Base KpackModel KpackSpec IntModel IntSpec SymModel SymSpec SymProofs P_Sym PMonModel PMonSpec KeyOps KeyInst
  SeriesModel SeriesModel2 SeriesSpec SeriesProofs SeriesProofs2 SeriesProofs3 SeriesProofs4 SeriesProofs5 SeriesProofs6 Lin EvalSpec SeriesEval SeriesProofs7 CfInst P_Series P_Series2
  PolyModel PolyModel2 PolySpec PolyProofs7 PolyProofs8 PolyProofs9 P_Poly P_Poly2 PowProofs PowProofs2 P_Pow CalcSpec DiffProofs IntegProofs P_Calc DomProofs.
Import ListNotations.
Open Scope Z_scope.
Open Scope res_scope.
Local Notation len := List.length.

Section PD.
Context {K C Tag : Type} (KO : key_ops K) (KS : key_sem K) (CO : cf_ops C) (PO : tbl_policy (K * C)) (TO : tag_ops Tag).
Context (KL : key_laws KO KS) (CL : cf_laws CO).
Notation series := (series K C Tag).
Notation WF := (wf KO KS CO).
Notation coef := (coef KS CO).
Notation exps s k := (ks_exps KS (List.length (s_ss s)) k).
Notation mul E := (poly_mul KO CO PO TO E).
Notation "0c" := (c_zero CO).
Infix "+c" := (c_add CO) (at level 50, left associativity).
Infix "*c" := (c_mul CO) (at level 40, left associativity).
Add Ring CringPD : (cl_ring _ CL).
Notation vterm := (list Z * C)%type.
Notation vt := (vt KS).

Lemma zero_terms us (x : series) : WF x -> covers us x -> (terms x = [] <-> same CO (vt us x) []).
Proof.
  intros W CV. split; [intros E; unfold SeriesEval.vt; rewrite E; apply same_refl|]. intros S. destruct (terms x) as [|[k c] l] eqn:T; [reflexivity|]. exfalso. assert (I : In (k, c) (terms x)) by (rewrite T; left; reflexivity).
  apply (wf_nonzero _ _ _ _ W k c I). rewrite <- (coef_term KO KS CO KL CL us x k c W CV I), coef_nden, <- vt_psum. apply S.
Qed.
Lemma at_term us (x : series) v : WF x -> covers us x -> psum CO (fun w => vec_eqb w v) (vt us x) <> 0c -> exists k c, In (k, c) (terms x) /\ spread (s_ss x) us (exps x k) = v.
Proof. intros W CV N. apply (coef_nonzero KO KS CO KL CL us x v W CV). rewrite coef_nden, <- vt_psum. exact N. Qed.
Lemma term_at us (x : series) k c : WF x -> covers us x -> In (k, c) (terms x) -> psum CO (fun w => vec_eqb w (spread (s_ss x) us (exps x k))) (vt us x) <> 0c.
Proof. intros W CV I. rewrite vt_psum, <- coef_nden, (coef_term KO KS CO KL CL us x k c W CV I). eapply wf_nonzero; eauto. Qed.

(** The degree in the selected symbols, of the stored terms, is the largest one over any symbols. *)
Lemma top_max us sel (x : series) d : WF x -> covers us x -> terms x <> [] -> is_max (map (fun e => degree_of sel (s_ss x) (exps x (fst e))) (terms x)) d -> top CO us sel (vt us x) d.
Proof.
  intros W CV NE [[E _]|[I M]]; [apply map_eq_nil in E; contradiction|]. pose proof CV as [SU IU]. pose proof (sorted_set_nodup _ SU) as NU. pose proof (sorted_set_nodup _ (wf_ss _ _ _ _ W)) as NX.
  assert (DS : forall k c, In (k, c) (terms x) -> degree_of sel us (spread (s_ss x) us (exps x k)) = degree_of sel (s_ss x) (exps x k)) by (intros k c J; apply degree_spread; auto; apply (kl_len _ _ KL); eapply wf_valid; eauto).
  split.
  - apply in_map_iff in I as ([k c] & E & I). cbn [fst] in E. exists (spread (s_ss x) us (exps x k)). split; [eapply term_at; eauto|]. rewrite (DS k c I). exact E.
  - intros v N. destruct (at_term us x v W CV N) as (k & c & J & <-). rewrite (DS k c J). apply M. apply (in_map (fun e => degree_of sel (s_ss x) (exps x (fst e)))) in J. exact J.
Qed.
Lemma degree_max (x : series) d : WF x -> series_degree KO x = Ok d -> is_max (map (fun e => degree_of all_symbols (s_ss x) (exps x (fst e))) (terms x)) d.
Proof.
  intros W E. destruct (degree_exact KO KS CO KL x W) as [(m & E' & M)|[E' _]]; [|congruence]. rewrite E in E'. apply (f_equal (fun o => match o with Ok a => a | _ => 0 end)) in E'. cbn in E'. subst m.
  erewrite map_ext_in; [exact M|]. intros [k c] I. cbn [fst]. unfold degree_of. rewrite selected_all; [reflexivity|]. apply (kl_len _ _ KL). eapply wf_valid; eauto.
Qed.
Lemma p_degree_max (x : series) syms d : WF x -> sorted_set syms -> series_p_degree KO x syms = Ok d -> is_max (map (fun e => degree_of (one_of syms) (s_ss x) (exps x (fst e))) (terms x)) d.
Proof.
  intros W SY E. destruct (p_degree_exact KO KS CO KL x syms W SY) as [(m & E' & M)|[E' _]]; [|congruence]. rewrite E in E'. apply (f_equal (fun o => match o with Ok a => a | _ => 0 end)) in E'. cbn in E'. subst m.
  erewrite map_ext_in; [exact M|]. intros [k c] I. cbn [fst]. unfold degree_of, partial_degree. rewrite selected_map; [reflexivity| |apply sorted_set_nodup, (wf_ss _ _ _ _ W)]. apply (kl_len _ _ KL). eapply wf_valid; eauto.
Qed.

Section Domain.
Context (ND : forall a b, a *c b = 0c -> a = 0c \/ b = 0c).

(** C98. A product is zero only if one of the factors is. *)
Theorem mul_no_zero_divisors : forall E (x y r : series), env_ok KO KS E -> WF x -> WF y -> Z.of_nat (len (s_ss x) + len (s_ss y)) <= imax size_t ->
  mul E x y = Ok r -> (terms r = [] <-> terms x = [] \/ terms y = []).
Proof.
  intros E x y r EO Wx Wy B ER. destruct (mul_exact' KO KS CO PO TO KL CL E x y r EO Wx Wy B ER) as (Wr & U & _). set (us := s_ss r).
  assert (SU : sorted_set us) by apply (wf_ss _ _ _ _ Wr). assert (CR : covers us r) by (split; [exact SU|apply incl_refl]). assert (CX : covers us x) by (split; [exact SU|intros w I; apply U; auto]). assert (CY : covers us y) by (split; [exact SU|intros w I; apply U; auto]).
  pose proof (mul_same KO KS CO PO TO KL CL E x y r us EO Wx Wy B ER SU (incl_refl _)) as S. rewrite (zero_terms us r Wr CR), (zero_terms us x Wx CX), (zero_terms us y Wy CY). split.
  - intros H. apply (prod_nonzero CO CL ND us all_symbols); [intros e; apply vt_len|intros e; apply vt_len|]. eapply same_trans; [apply same_sym; exact S|exact H].
  - intros [H|H]; (eapply same_trans; [exact S|]).
    + eapply same_trans; [apply (same_prod CO CL); [exact H|apply same_refl]|]. apply same_refl.
    + eapply same_trans; [apply (same_swap CO CL)|]. eapply same_trans; [apply (same_prod CO CL); [exact H|apply same_refl]|]. apply same_refl.
Qed.

Lemma top_of_product sel E (x y r : series) dx dy d : env_ok KO KS E -> WF x -> WF y -> Z.of_nat (len (s_ss x) + len (s_ss y)) <= imax size_t -> mul E x y = Ok r -> terms x <> [] -> terms y <> [] ->
  is_max (map (fun e => degree_of sel (s_ss x) (exps x (fst e))) (terms x)) dx -> is_max (map (fun e => degree_of sel (s_ss y) (exps y (fst e))) (terms y)) dy ->
  is_max (map (fun e => degree_of sel (s_ss r) (exps r (fst e))) (terms r)) d -> d = dx + dy.
Proof.
  intros EO Wx Wy B ER NX NY MX MY MR. destruct (mul_exact' KO KS CO PO TO KL CL E x y r EO Wx Wy B ER) as (Wr & U & _). set (us := s_ss r).
  assert (SU : sorted_set us) by apply (wf_ss _ _ _ _ Wr). assert (CR : covers us r) by (split; [exact SU|apply incl_refl]). assert (CX : covers us x) by (split; [exact SU|intros w I; apply U; auto]). assert (CY : covers us y) by (split; [exact SU|intros w I; apply U; auto]).
  pose proof (mul_same KO KS CO PO TO KL CL E x y r us EO Wx Wy B ER SU (incl_refl _)) as S.
  assert (NR : terms r <> []) by (intros H; apply (mul_no_zero_divisors E x y r EO Wx Wy B ER) in H; tauto).
  apply (top_unique CO us sel (vt us r)); [apply top_max; auto|]. eapply (top_same CO); [apply same_sym; exact S|]. apply (top_prod CO CL ND us sel); [intros e; apply vt_len|intros e; apply vt_len|apply top_max; auto|apply top_max; auto].
Qed.

(** C98. The degree of a product of nonzero polynomials is the sum of their degrees; so is the partial degree in any symbols. *)
Theorem degree_product : forall E (x y r : series) dx dy d, env_ok KO KS E -> WF x -> WF y -> Z.of_nat (len (s_ss x) + len (s_ss y)) <= imax size_t -> mul E x y = Ok r -> terms x <> [] -> terms y <> [] ->
  series_degree KO x = Ok dx -> series_degree KO y = Ok dy -> series_degree KO r = Ok d -> d = dx + dy.
Proof.
  intros E x y r dx dy d EO Wx Wy B ER NX NY EX EY EQ. destruct (mul_exact' KO KS CO PO TO KL CL E x y r EO Wx Wy B ER) as (Wr & _). apply (top_of_product all_symbols E x y r); auto; apply degree_max; auto.
Qed.
Theorem p_degree_product : forall E (x y r : series) syms dx dy d, env_ok KO KS E -> WF x -> WF y -> sorted_set syms -> Z.of_nat (len (s_ss x) + len (s_ss y)) <= imax size_t -> mul E x y = Ok r -> terms x <> [] -> terms y <> [] ->
  series_p_degree KO x syms = Ok dx -> series_p_degree KO y syms = Ok dy -> series_p_degree KO r syms = Ok d -> d = dx + dy.
Proof.
  intros E x y r syms dx dy d EO Wx Wy SY B ER NX NY EX EY EQ. destruct (mul_exact' KO KS CO PO TO KL CL E x y r EO Wx Wy B ER) as (Wr & _). apply (top_of_product (one_of syms) E x y r); auto; apply p_degree_max; auto.
Qed.

(** C98. Cancellation: if x y = x z and x is not zero, then y = z. *)
Theorem mul_cancel : forall E E' (x y z r r' : series), env_ok KO KS E -> env_ok KO KS E' -> WF x -> WF y -> WF z ->
  Z.of_nat (len (s_ss x) + len (s_ss y) + len (s_ss z)) <= imax size_t -> terms x <> [] ->
  mul E x y = Ok r -> mul E' x z = Ok r' -> (forall us ws, covers us r -> covers us r' -> coef us r ws = coef us r' ws) ->
  forall us ws, coef us y ws = coef us z ws.
Proof.
  intros E E' x y z r r' EO EO' Wx Wy Wz B0 NX ER ER' EQ us ws. assert (B : Z.of_nat (len (s_ss x) + len (s_ss y)) <= imax size_t) by lia. assert (B' : Z.of_nat (len (s_ss x) + len (s_ss z)) <= imax size_t) by lia.
  destruct (mul_exact' KO KS CO PO TO KL CL E x y r EO Wx Wy B ER) as (Wr & U & _). destruct (mul_exact' KO KS CO PO TO KL CL E' x z r' EO' Wx Wz B' ER') as (Wr' & U' & _).
  assert (LR : (len (s_ss r) <= len (s_ss x) + len (s_ss y))%nat). { rewrite <- app_length. apply NoDup_incl_length; [apply sorted_set_nodup, (wf_ss _ _ _ _ Wr)|]. intros w I. apply in_or_app. apply U. exact I. }
  destruct (merge_symbol_sets_exact (s_ss r) (s_ss z) (wf_ss _ _ _ _ Wr) (wf_ss _ _ _ _ Wz) ltac:(lia)) as (vs & _ & _ & _ & SV & UV & _).
  assert (CXv : covers vs x) by (split; [exact SV|intros w I; apply UV; left; apply U; auto]). assert (CYv : covers vs y) by (split; [exact SV|intros w I; apply UV; left; apply U; auto]). assert (CZv : covers vs z) by (split; [exact SV|intros w I; apply UV; auto]).
  assert (IR : incl (s_ss r) vs) by (intros w I; apply UV; auto). assert (IR' : incl (s_ss r') vs) by (intros w I; apply U' in I as [I|I]; [apply CXv, I|apply CZv, I]).
  pose proof (mul_same KO KS CO PO TO KL CL E x y r vs EO Wx Wy B ER SV IR) as S. pose proof (mul_same KO KS CO PO TO KL CL E' x z r' vs EO' Wx Wz B' ER' SV IR') as S'.
  set (neg := fun e : vterm => (fst e, c_neg CO (snd e))).
  assert (PN : forall Q l, psum CO Q (map neg l) = c_neg CO (psum CO Q l)).
  { intros Q l. induction l as [|e l IH]; [unfold psum; cbn; ring|]. cbn [map]. rewrite !(psum_cons CO CL), IH. unfold neg at 1 2. cbn [fst snd]. destruct (Q (fst e)); cbn [ifP]; ring. }
  assert (PV : same CO (vprod CO (vt vs x) (map neg (vt vs z))) (map neg (vprod CO (vt vs x) (vt vs z)))).
  { intros Q. rewrite PN. generalize (vt vs x) as X. induction X as [|e X IH]; [unfold vprod, psum; cbn; ring|]. rewrite !vprod_cons, !(psum_app CO CL), IH.
    assert (Y : psum CO Q (map (vmulp CO e) (map neg (vt vs z))) = c_neg CO (psum CO Q (map (vmulp CO e) (vt vs z)))); [|rewrite Y; ring].
    generalize (vt vs z) as Z. induction Z as [|e' Z IHZ]; [unfold psum; cbn; ring|]. cbn [map]. rewrite !(psum_cons CO CL), IHZ. unfold neg at 1 2. cbn [vmulp fst snd]. destruct (Q _); cbn [ifP]; ring. }
  assert (PA : forall (a b c : list vterm), same CO (vprod CO a (b ++ c)) (vprod CO a b ++ vprod CO a c)).
  { intros a b c. eapply same_trans; [apply (same_swap CO CL)|]. rewrite vprod_app. apply (same_app CO CL); apply (same_swap CO CL). }
  assert (Z0 : same CO (vprod CO (vt vs x) (vt vs y ++ map neg (vt vs z))) []).
  { eapply same_trans; [apply PA|]. intros Q. rewrite (psum_app CO CL), PV, PN, <- S, <- S'. assert (SR : same CO (vt vs r) (vt vs r')). { apply (same_eqb CO CL). intros v. rewrite !vt_psum, <- !coef_nden. apply EQ; split; auto. } rewrite (SR Q). unfold psum at 3. cbn. ring. }
  apply (prod_nonzero CO CL ND vs all_symbols) in Z0; [|intros e; apply vt_len|].
  - destruct Z0 as [Z0|Z0]; [elim NX; apply (zero_terms vs x Wx CXv); exact Z0|].
    assert (SYZ : same CO (vt vs y) (vt vs z)). { intros Q. specialize (Z0 Q). rewrite (psum_app CO CL), PN in Z0. unfold psum at 3 in Z0. cbn in Z0. replace (psum CO Q (vt vs y)) with (psum CO Q (vt vs y) +c c_neg CO (psum CO Q (vt vs z)) +c psum CO Q (vt vs z)) by ring. rewrite Z0. ring. }
    assert (G : forall (s : series), covers vs s -> coef us s ws = psum CO (fun v => vec_eqb (spread vs us v) ws) (vt vs s)).
    { intros s [_ Is]. rewrite vt_psum. unfold nden. rewrite coef_nden. unfold nden. symmetry. apply (vden_spread KS CO vs us s (fun v => vec_eqb v ws) Is). }
    rewrite (G y CYv), (G z CZv). apply SYZ.
  - intros e I. apply in_app_or in I as [I|I]; [eapply vt_len; eauto|]. apply in_map_iff in I as (e' & <- & I). unfold neg. cbn [fst]. eapply vt_len; eauto.
Qed.
End Domain.

(** * Powers *)
Section Powers.
Context (F0 : ks_fits KS []).
(** r is the result of the call pow(x, n), with some cache left by earlier calls and in some environment. *)
Definition pow_call (x : series) (n : nat) (r : series) : Prop :=
  exists m E cpow, reachable KO KS CO PO TO m /\ env_ok KO KS E /\ (forall c, cpow c = Ok (cpower CO c n)) /\ fst (poly_pow KO CO PO TO E cpow (Some (Z.of_nat n)) (Nat.eqb n 0) (Some n) m x) = Ok r.
(** r is the result of x * y, in some environment. *)
Definition mul_call (x y r : series) : Prop := exists E, env_ok KO KS E /\ mul E x y = Ok r.

Lemma pow_call_is (x r : series) n : WF x -> Z.of_nat (len (s_ss x) + len (s_ss x)) <= imax size_t -> pow_call x n r -> is_power KO KS CO x n r.
Proof.
  intros W B (m & E & cpow & R & EO & CP & H). destruct (pow_exact KO KS CO PO TO KL CL F0 m E cpow n x R EO (conj W B) CP) as [(r' & E' & P)|[[E'|E'] _]]; [|congruence|congruence]. assert (r' = r) by congruence. subst r'. exact P.
Qed.
Lemma power_same us (x r : series) n : is_power KO KS CO x n r -> covers us x -> same CO (vt us r) (powl KS CO us x n).
Proof.
  intros (Wr & IR & D) CV. apply (same_eqb CO CL). intros v. destruct (Nat.eq_dec (len v) (len us)) as [L|L]; [rewrite powl_coef by (auto; exact L); rewrite vt_psum, <- coef_nden; apply D; auto|].
  assert (Z0 : forall l : list vterm, (forall e, In e l -> len (fst e) = len us) -> psum CO (fun w => vec_eqb w v) l = 0c).
  { intros l H. apply (psum_none CO CL). intros I. apply in_map_iff in I as (e & <- & I). auto. }
  rewrite !Z0; [reflexivity| |]; [intros e; apply powl_len|intros e; apply vt_len].
Qed.
Lemma is_power_len (x r : series) n : is_power KO KS CO x n r -> (len (s_ss r) <= len (s_ss x))%nat.
Proof. intros (Wr & IR & _). apply NoDup_incl_length; [apply sorted_set_nodup, (wf_ss _ _ _ _ Wr)|exact IR]. Qed.

Lemma unit_prod us (L : list vterm) : (forall e, In e L -> len (fst e) = len us) -> same CO (vprod CO (unit_vt CO us) L) L.
Proof.
  intros H. unfold unit_vt. rewrite vprod_cons. unfold vprod at 1. cbn [list_prod map]. rewrite List.app_nil_r. intros Q. f_equal.
  erewrite map_ext_in; [apply map_id|]. intros [v c] I. unfold vmulp. cbn [fst snd]. f_equal; [|ring]. specialize (H _ I). cbn [fst] in H. rewrite <- H. clear. induction v as [|a v IH]; [reflexivity|]. cbn [List.length repeat]. rewrite vadd_cons, IH. reflexivity.
Qed.
Lemma powl_add us (x : series) m : forall n, same CO (powl KS CO us x (m + n)) (vprod CO (powl KS CO us x m) (powl KS CO us x n)).
Proof.
  induction n as [|n IH]; [rewrite Nat.add_0_r; cbn [powl]; eapply same_trans; [apply same_sym, unit_prod, powl_len|apply (same_swap CO CL)]|]. rewrite Nat.add_succ_r. cbn [powl]. eapply same_trans; [apply (same_prod CO CL); [exact IH|apply same_refl]|]. rewrite (vprod_assoc CO CL). apply same_refl.
Qed.

(** C99. x^(m+n) = x^m x^n. *)
Theorem pow_add : forall (x a b c p : series) m n, WF x -> Z.of_nat (len (s_ss x) + len (s_ss x)) <= imax size_t ->
  pow_call x m a -> pow_call x n b -> pow_call x (m + n) c -> mul_call a b p -> forall us ws, covers us x -> coef us p ws = coef us c ws.
Proof.
  intros x a b c p m n W B PA PB PC (E & EO & EP) us ws CV. pose proof (pow_call_is x a m W B PA) as IA. pose proof (pow_call_is x b n W B PB) as IB. pose proof (pow_call_is x c (m + n) W B PC) as IC.
  pose proof (is_power_len _ _ _ IA) as LA. pose proof (is_power_len _ _ _ IB) as LB. pose proof IA as (Wa & SA & _). pose proof IB as (Wb & SB & _).
  assert (BP : Z.of_nat (len (s_ss a) + len (s_ss b)) <= imax size_t) by lia. destruct (mul_exact' KO KS CO PO TO KL CL E a b p EO Wa Wb BP EP) as (Wp & U & _). pose proof CV as [SU IU].
  rewrite !coef_nden, <- !vt_psum. eapply same_trans; [apply (mul_same KO KS CO PO TO KL CL E a b p us EO Wa Wb BP EP SU)|].
  - intros w I. apply IU. apply U in I as [I|I]; auto.
  - eapply same_trans; [apply (same_prod CO CL); [apply (power_same us x a m IA CV)|apply (power_same us x b n IB CV)]|]. eapply same_trans; [apply same_sym, powl_add|]. apply same_sym. apply (power_same us x c (m + n) IC CV).
Qed.

(** C99. (x y)^n = x^n y^n. *)
Theorem pow_product : forall (x y p q a b r : series) n, WF x -> WF y -> 2 * Z.of_nat (len (s_ss x) + len (s_ss y)) <= imax size_t ->
  mul_call x y p -> pow_call p n q -> pow_call x n a -> pow_call y n b -> mul_call a b r -> forall us ws, covers us p -> coef us r ws = coef us q ws.
Proof.
  intros x y p q a b r n Wx Wy B (E & EO & EP) PQ PA PB (E' & EO' & ER) us ws CV. assert (BX : Z.of_nat (len (s_ss x) + len (s_ss y)) <= imax size_t) by lia.
  destruct (mul_exact' KO KS CO PO TO KL CL E x y p EO Wx Wy BX EP) as (Wp & U & _). pose proof CV as [SU IU].
  assert (LP : (len (s_ss p) <= len (s_ss x) + len (s_ss y))%nat). { rewrite <- app_length. apply NoDup_incl_length; [apply sorted_set_nodup, (wf_ss _ _ _ _ Wp)|]. intros w I. apply in_or_app. apply U. exact I. }
  assert (CX : covers us x) by (split; [exact SU|intros w I; apply IU, U; auto]). assert (CY : covers us y) by (split; [exact SU|intros w I; apply IU, U; auto]).
  pose proof (pow_call_is x a n Wx ltac:(lia) PA) as IA. pose proof (pow_call_is y b n Wy ltac:(lia) PB) as IB. pose proof (pow_call_is p q n Wp ltac:(lia) PQ) as IQ.
  pose proof (is_power_len _ _ _ IA) as LA. pose proof (is_power_len _ _ _ IB) as LB. pose proof IA as (Wa & SA & _). pose proof IB as (Wb & SB & _).
  assert (BR : Z.of_nat (len (s_ss a) + len (s_ss b)) <= imax size_t) by lia. destruct (mul_exact' KO KS CO PO TO KL CL E' a b r EO' Wa Wb BR ER) as (Wr & U' & _).
  pose proof (mul_same KO KS CO PO TO KL CL E x y p us EO Wx Wy BX EP SU IU) as SP.
  rewrite !coef_nden, <- !vt_psum. eapply same_trans; [apply (mul_same KO KS CO PO TO KL CL E' a b r us EO' Wa Wb BR ER SU)|].
  - intros w I. apply IU, U. apply U' in I as [I|I]; auto.
  - eapply same_trans; [apply (same_prod CO CL); [apply (power_same us x a n IA CX)|apply (power_same us y b n IB CY)]|]. eapply same_trans; [|apply same_sym; apply (power_same us p q n IQ CV)].
    clear - SP CL. induction n as [|n IH]; [apply unit_prod; apply powl_len|]. cbn [powl]. eapply same_trans; [|apply (same_prod CO CL); [exact IH|apply same_sym; exact SP]].
    rewrite !(vprod_assoc CO CL). apply (same_prod CO CL); [apply same_refl|]. rewrite <- !(vprod_assoc CO CL). apply (same_prod CO CL); [|apply same_refl]. apply (same_swap CO CL).
Qed.

(** C99. (x^m)^n = x^(m n). *)
Theorem pow_pow : forall (x a b c : series) m n, WF x -> Z.of_nat (len (s_ss x) + len (s_ss x)) <= imax size_t ->
  pow_call x m a -> pow_call a n b -> pow_call x (m * n) c -> forall us ws, covers us x -> coef us b ws = coef us c ws.
Proof.
  intros x a b c m n W B PA PB PC us ws CV. pose proof (pow_call_is x a m W B PA) as IA. pose proof (is_power_len _ _ _ IA) as LA. pose proof IA as (Wa & SA & _). pose proof (pow_call_is a b n Wa ltac:(lia) PB) as IB. pose proof (pow_call_is x c (m * n) W B PC) as IC.
  assert (CA : covers us a) by (destruct CV as [SU IU]; split; [exact SU|intros w I; apply IU, SA, I]). pose proof (power_same us x a m IA CV) as S.
  rewrite !coef_nden, <- !vt_psum. eapply same_trans; [apply (power_same us a b n IB CA)|]. eapply same_trans; [|apply same_sym; apply (power_same us x c (m * n) IC CV)].
  clear - S CL. induction n as [|n IH]; [rewrite Nat.mul_0_r; apply same_refl|]. cbn [powl]. rewrite Nat.mul_succ_r. eapply same_trans; [apply (same_prod CO CL); [exact IH|exact S]|]. apply same_sym, powl_add.
Qed.

(** n copies of a formal sum. *)
Definition copies (n : nat) (l : list vterm) : list vterm := List.concat (repeat l n).
Lemma copies_psum Q l : forall n, psum CO Q (copies n l) = csum CO (repeat (psum CO Q l) n).
Proof. induction n as [|n IH]; [reflexivity|]. unfold copies in *. cbn [repeat List.concat]. rewrite (psum_app CO CL), IH. reflexivity. Qed.
Lemma copies_same n l l' : same CO l l' -> same CO (copies n l) (copies n l').
Proof. intros S Q. rewrite !copies_psum, (S Q). reflexivity. Qed.
Lemma copies_prod n l l' : vprod CO (copies n l) l' = copies n (vprod CO l l').
Proof. induction n as [|n IH]; [reflexivity|]. unfold copies in *. cbn [repeat List.concat]. rewrite vprod_app, IH. reflexivity. Qed.

(** C99. The derivative of x^(n+1) is the sum of n+1 copies of x^n x'. *)
Theorem diff_pow : forall (cz : Z -> C), int_embedding CO cz -> forall (x r dr a dx p : series) s n, WF x -> Z.of_nat (len (s_ss x) + len (s_ss x)) <= imax size_t ->
  pow_call x (S n) r -> poly_diff KO CO PO TO cz r s = Ok dr -> pow_call x n a -> poly_diff KO CO PO TO cz x s = Ok dx -> mul_call a dx p ->
  forall us ws, covers us x -> coef us dr ws = csum CO (repeat (coef us p ws) (S n)).
Proof.
  intros cz CZ x r dr a dx p s n W B PR ED PA EDX (E & EO & EP) us ws CV. pose proof (pow_call_is x r (S n) W B PR) as IR. pose proof (pow_call_is x a n W B PA) as IA. pose proof (is_power_len _ _ _ IA) as LA. pose proof IA as (Wa & SA & _). pose proof IR as (Wr & SR & _).
  destruct (diff_ok KO KS CO PO TO KL CL cz CZ r dr s Wr ED) as (_ & _ & DR). destruct (diff_ok KO KS CO PO TO KL CL cz CZ x dx s W EDX) as (Wdx & SDX & DX).
  assert (BP : Z.of_nat (len (s_ss a) + len (s_ss dx)) <= imax size_t) by (rewrite SDX; lia). destruct (mul_exact' KO KS CO PO TO KL CL E a dx p EO Wa Wdx BP EP) as (Wp & U & _). pose proof CV as [SU IU].
  assert (IP : incl (s_ss p) us) by (intros w I; apply IU; apply U in I as [I|I]; [auto|rewrite SDX in I; exact I]). assert (CR : covers us r) by (split; [exact SU|intros w I; apply IU, SR, I]).
  set (D := dterm CO cz us s). set (X := vt us x). set (P := powl KS CO us x).
  assert (LX : forall e, In e X -> len (fst e) = len us) by (intros e; apply vt_len). assert (LPn : forall i e, In e (P i) -> len (fst e) = len us) by (intros i e; apply powl_len).
  assert (SM : same CO (vt us p) (vprod CO (P n) (map D X))). { eapply same_trans; [apply (mul_same KO KS CO PO TO KL CL E a dx p us EO Wa Wdx BP EP SU IP)|]. apply (same_prod CO CL); [apply (power_same us x a n IA CV)|apply DX; exact CV]. }
  assert (SD : same CO (vt us dr) (map D (P (S n)))). { eapply same_trans; [apply DR; exact CR|]. apply (dterm_same CO CL cz). apply (power_same us x r (S n) IR CV). }
  assert (LD : forall e, In e (map D X) -> len (fst e) = len us) by (intros e I; apply in_map_iff in I as (e' & <- & I); unfold D, dterm; cbn [fst]; rewrite bump_len; auto).
  assert (KEY : forall i, same CO (map D (P (S i))) (copies (S i) (vprod CO (P i) (map D X)))).
  { induction i as [|i IH].
    - assert (S1 : same CO (P 1%nat) X) by (unfold P; cbn [powl]; apply unit_prod; exact LX). eapply same_trans; [exact (dterm_same CO CL cz us s _ _ S1)|]. unfold copies. cbn [repeat List.concat]. rewrite List.app_nil_r. apply same_sym. apply unit_prod. exact LD.
    - change (P (S (S i))) with (vprod CO (P (S i)) X). eapply same_trans; [exact (dterm_product CO CL cz CZ us s (P (S i)) X (LPn (S i)) LX)|].
      eapply same_trans; [apply (same_app CO CL); [apply (same_prod CO CL); [exact IH|apply same_refl]|apply same_refl]|]. rewrite copies_prod.
      eapply same_trans; [apply (same_app CO CL); [apply (copies_same (S i) _ (vprod CO (P (S i)) (map D X)))|apply same_refl]|].
      + change (P (S i)) with (vprod CO (P i) X). rewrite !(vprod_assoc CO CL). apply (same_prod CO CL); [apply same_refl|apply (same_swap CO CL)].
      + intros Q. rewrite (psum_app CO CL). unfold copies at 2. cbn [repeat List.concat]. rewrite (psum_app CO CL). change (List.concat (repeat ?l i)) with (copies i l). change (vprod CO (P (S i)) (map D X) ++ copies i (vprod CO (P (S i)) (map D X))) with (copies (S i) (vprod CO (P (S i)) (map D X))). fold D. ring. }
  rewrite !coef_nden, <- !vt_psum. rewrite (SD _), (KEY n _), copies_psum, (SM _). reflexivity.
Qed.
(** C98. The degree of a power is the multiple of the degree. *)
Lemma pow_top sel us (x : series) n d : (forall a b, a *c b = 0c -> a = 0c \/ b = 0c) -> top CO us sel (vt us x) d -> top CO us sel (powl KS CO us x n) (Z.of_nat n * d).
Proof.
  intros ND T. assert (N1 : c_one CO <> 0c). { intros E. destruct T as [(v & N & _) _]. apply N. replace (psum CO (fun x0 => vec_eqb x0 v) (vt us x)) with (c_one CO *c psum CO (fun x0 => vec_eqb x0 v) (vt us x)) by ring. rewrite E. ring. }
  assert (D0 : degree_of sel us (repeat 0 (len us)) = 0). { unfold degree_of, selected. clear. induction us as [|z us IH]; [reflexivity|]. cbn [List.length repeat combine filter fst]. destruct (sel z); cbn [map snd vsum fold_right]; [|exact IH]. unfold vsum in IH. rewrite IH. reflexivity. }
  induction n as [|n IH].
  - assert (AT : forall v, psum CO (fun w => vec_eqb w v) (unit_vt CO us) <> 0c -> v = repeat 0 (len us)).
    { intros v N. unfold unit_vt in N. rewrite (psum_cons CO CL) in N. cbn [fst snd] in N. destruct (vec_eqb (repeat 0 (len us)) v) eqn:EV; [apply vec_eqb_iff in EV; auto|]. elim N. cbn [ifP]. unfold psum. cbn. ring. }
    split; [exists (repeat 0 (len us)); split; [|rewrite D0; reflexivity]|intros v N; rewrite (AT v N), D0; reflexivity]. cbn [powl]. unfold unit_vt. rewrite (psum_cons CO CL). cbn [fst snd]. rewrite (proj2 (vec_eqb_iff _ _) eq_refl). cbn [ifP]. intros E. apply N1. rewrite <- E. unfold psum. cbn. ring.
  - cbn [powl]. replace (Z.of_nat (S n) * d) with (Z.of_nat n * d + d) by lia. apply (top_prod CO CL ND us sel); auto; [intros e; apply powl_len|intros e; apply vt_len].
Qed.
Theorem pow_degree : (forall a b, a *c b = 0c -> a = 0c \/ b = 0c) -> forall (x r : series) n dx d, WF x -> Z.of_nat (len (s_ss x) + len (s_ss x)) <= imax size_t -> pow_call x n r -> terms x <> [] ->
  series_degree KO x = Ok dx -> series_degree KO r = Ok d -> terms r <> [] /\ d = Z.of_nat n * dx.
Proof.
  intros ND x r n dx d W B PR NX EX ER. pose proof (pow_call_is x r n W B PR) as IR. pose proof IR as (Wr & SR & _). assert (CV : covers (s_ss x) x) by (split; [apply (wf_ss _ _ _ _ W)|apply incl_refl]). assert (CR : covers (s_ss x) r) by (split; [apply (wf_ss _ _ _ _ W)|exact SR]).
  pose proof (top_max (s_ss x) all_symbols x dx W CV NX (degree_max x dx W EX)) as T. pose proof (pow_top all_symbols (s_ss x) x n dx ND T) as TP. apply (top_same CO _ _ _ _ _ (same_sym CO _ _ (power_same (s_ss x) x r n IR CV))) in TP.
  assert (NR : terms r <> []). { intros E. apply (top_nonzero CO _ _ _ _ TP). apply (zero_terms (s_ss x) r Wr CR). exact E. }
  split; [exact NR|]. apply (top_unique CO (s_ss x) all_symbols (vt (s_ss x) r)); [|exact TP]. apply top_max; auto. apply degree_max; auto.
Qed.
End Powers.

(** C99. Partial derivatives commute. *)
Theorem diff_commute : forall (cz : Z -> C), int_embedding CO cz -> forall (x xa xab xb xba : series) a b, WF x ->
  poly_diff KO CO PO TO cz x a = Ok xa -> poly_diff KO CO PO TO cz xa b = Ok xab -> poly_diff KO CO PO TO cz x b = Ok xb -> poly_diff KO CO PO TO cz xb a = Ok xba ->
  s_ss xab = s_ss xba /\ forall us ws, covers us x -> coef us xab ws = coef us xba ws.
Proof.
  intros cz CZ x xa xab xb xba a b W E1 E2 E3 E4. destruct (diff_ok KO KS CO PO TO KL CL cz CZ x xa a W E1) as (Wa & Sa & Da). destruct (diff_ok KO KS CO PO TO KL CL cz CZ xa xab b Wa E2) as (Wab & Sab & Dab).
  destruct (diff_ok KO KS CO PO TO KL CL cz CZ x xb b W E3) as (Wb & Sb & Db). destruct (diff_ok KO KS CO PO TO KL CL cz CZ xb xba a Wb E4) as (Wba & Sba & Dba).
  split; [congruence|]. intros us ws CV. assert (CA : covers us xa) by (destruct CV; split; [assumption|rewrite Sa; assumption]). assert (CB : covers us xb) by (destruct CV; split; [assumption|rewrite Sb; assumption]).
  rewrite !coef_nden, <- !vt_psum. eapply same_trans; [apply Dab; exact CA|]. eapply same_trans; [apply (dterm_same CO CL cz); apply Da; exact CV|]. eapply same_trans; [|apply same_sym; eapply same_trans; [apply Dba; exact CB|]; apply (dterm_same CO CL cz); apply Db; exact CV].
  rewrite !map_map. destruct (string_dec a b) as [-> |NE]; [apply same_refl|]. intros Q. f_equal. apply map_ext_in. intros e I. pose proof (vt_len KS us x e I) as L. unfold dterm. cbn [fst snd]. rewrite !expo_bump by exact L.
  rewrite (proj2 (String.eqb_neq b a)) by auto. rewrite (proj2 (String.eqb_neq a b)) by auto. f_equal; [|ring]. destruct e as [v c]. cbn [fst] in *. clear - NE L. revert v L. induction us as [|z us IH]; intros [|w v] L; try reflexivity. unfold bump in *. cbn [combine map fst snd]. f_equal; [|apply IH; cbn in L; lia].
  destruct (String.eqb z a) eqn:EA, (String.eqb z b) eqn:EB; cbn; lia.
Qed.

End PD.

Print Assumptions mul_no_zero_divisors.
Print Assumptions degree_product.
Print Assumptions p_degree_product.
Print Assumptions mul_cancel.
Print Assumptions pow_degree.
Print Assumptions pow_add.
Print Assumptions pow_product.
Print Assumptions pow_pow.
Print Assumptions diff_pow.
Print Assumptions diff_commute.

(** * Non-vacuity: x = 3 a b^2 - 2 a + 7 b over the integers. *)
Lemma Z_domain : forall a b : Z, c_mul Z_cf a b = c_zero Z_cf -> a = c_zero Z_cf \/ b = c_zero Z_cf.
Proof. intros a b H. apply Z.mul_eq_0 in H. exact H. Qed.
Example ex_degrees : exists r, poly_mul exK Z_cf exP Z_tag (exE true 1) ex_x ex_x = Ok r /\ series_degree exK ex_x = Ok 3 /\ series_degree exK r = Ok 6 /\ series_p_degree exK ex_x ["b"]%string = Ok 2 /\
  series_p_degree exK r ["b"]%string = Ok 4 /\ series_size ex_x = 3%nat /\ series_size r = 6%nat.
Proof. eexists. do 6 (split; [vm_compute; reflexivity|]). vm_compute; reflexivity. Qed.
Notation pc := (pow_call exK exS Z_cf exP Z_tag).
Notation mc := (mul_call exK exS Z_cf exP Z_tag).
Lemma ex_call mt lg n m r : reachable exK exS Z_cf exP Z_tag m -> fst (ex_pow mt lg n m ex_x) = Ok r -> pc ex_x n r.
Proof. intros R E. exists m, (exE mt lg), (fun c => Ok (cpower Z_cf c n)). split; [exact R|]. split; [apply exE_ok|]. split; [reflexivity|exact E]. Qed.
Example ex_pow_laws : exists a b c p dx dc q, pc ex_x 1 a /\ pc ex_x 2 b /\ pc ex_x 3 c /\ mc a b p /\ series_size c = 10%nat /\ series_size p = 10%nat /\
  poly_diff exK Z_cf exP Z_tag (fun z => z) ex_x "a"%string = Ok dx /\ poly_diff exK Z_cf exP Z_tag (fun z => z) c "a"%string = Ok dc /\ mc b dx q /\
  coef exS Z_cf ["a"; "b"]%string dc [1; 3] = -504 /\ coef exS Z_cf ["a"; "b"]%string q [1; 3] = -168.
Proof.
  destruct ex_pow_arg as (_ & _ & R). eexists _, _, _, _, _, _, _. split; [apply (ex_call false 0 1 []); [apply r_empty|vm_compute; reflexivity]|]. split; [apply (ex_call false 0 2 ex_m3); [exact R|vm_compute; reflexivity]|]. split; [apply (ex_call true 1 3 []); [apply r_empty|vm_compute; reflexivity]|].
  split; [exists (exE true 1); split; [apply exE_ok|vm_compute; reflexivity]|]. split; [vm_compute; reflexivity|]. split; [vm_compute; reflexivity|]. split; [vm_compute; reflexivity|]. split; [vm_compute; reflexivity|]. split; [exists (exE true 1); split; [apply exE_ok|vm_compute; reflexivity]|]. split; vm_compute; reflexivity.
Qed.
