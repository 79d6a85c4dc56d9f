(** Powers of polynomials. *)
From Coq Require Import ZArith List Bool String Arith Sorted Permutation Lia Ring Ring_theory.
From Verif Require Import Base IntModel SymModel SymSpec SymProofs P_Sym PMonSpec KeyOps
  SeriesModel SeriesModel2 SeriesSpec SeriesProofs SeriesProofs2 SeriesProofs3 SeriesProofs4 SeriesProofs5 SeriesProofs6 Lin EvalSpec SeriesEval SeriesProofs7 P_Series P_Series2
  PolyModel PolyModel2 PolySpec PolyProofs7 PolyProofs8 PolyProofs9 P_Poly PowProofs.
Import ListNotations.
Open Scope Z_scope.
Open Scope res_scope.
Local Notation len := List.length.

Lemma vadd_minus : forall e f ws, len e = len ws -> len f = len ws -> vec_eqb (vadd e f) ws = vec_eqb f (vminus ws e).
Proof.
  intros e f ws L1 L2. assert (X : vadd e f = ws <-> f = vminus ws e).
  { revert f ws L1 L2. unfold vadd, vminus. induction e as [|a e IH]; intros [|b f] [|w ws] L1 L2; cbn in *; try discriminate; [tauto|].
    specialize (IH f ws ltac:(lia) ltac:(lia)). split; intros [= H1 H2]; f_equal; try lia; apply IH; auto. }
  unfold vec_eqb. destruct (list_eq_dec _ _ _), (list_eq_dec _ _ _); tauto.
Qed.
Lemma vminus_len a b : len a = len b -> len (vminus a b) = len a.
Proof. intros L. unfold vminus. rewrite map_length, combine_length. lia. Qed.

Section Pow.
Context {K C Tag : Type} (KO : key_ops K) (KS : key_sem K) (CO : cf_ops C) (PO : tbl_policy (K * C)) (TO : tag_ops Tag).
Context (KL : key_laws KO KS) (CL : cf_laws CO) (F0 : ks_fits KS []).
Notation series := (series K C Tag).
Notation WF := (wf KO KS CO).
Infix "+c" := (c_add CO) (at level 50, left associativity).
Infix "*c" := (c_mul CO) (at level 40, left associativity).
Add Ring CringPw : (cl_ring _ CL).
Notation vterm := (list Z * C)%type.

Definition unit_vt (us : symbol_set) : list vterm := [(repeat 0 (len us), c_one CO)].
Fixpoint powl (us : symbol_set) (b : series) (n : nat) : list vterm :=
  match n with O => unit_vt us | S n' => vprod CO (powl us b n') (vt KS us b) end.

Lemma vt_len us (s : series) e : In e (vt KS us s) -> len (fst e) = len us.
Proof. unfold vt. rewrite in_map_iff. intros (x & <- & _). cbn [fst]. apply spread_len. Qed.
Lemma vprod_len n (a b : list vterm) : (forall e, In e a -> len (fst e) = n) -> (forall e, In e b -> len (fst e) = n) -> forall e, In e (vprod CO a b) -> len (fst e) = n.
Proof.
  intros A B e. unfold vprod. rewrite in_map_iff. intros ([x y] & <- & I). apply in_prod_iff in I. destruct I as [I J]. cbn [vmulp fst snd]. apply vadd_len; auto.
Qed.
Lemma powl_len us b n : forall e, In e (powl us b n) -> len (fst e) = len us.
Proof.
  induction n as [|n IH]; cbn [powl]; [intros e [<-|[]]; apply repeat_length|]. apply vprod_len; [exact IH|]. apply vt_len.
Qed.
Lemma psum_scaled (a : vterm) (l : list vterm) ws : len (fst a) = len ws -> (forall e, In e l -> len (fst e) = len ws) ->
  psum CO (fun v => vec_eqb v ws) (map (vmulp CO a) l) = snd a *c psum CO (fun v => vec_eqb v (vminus ws (fst a))) l.
Proof.
  intros LA. induction l as [|e l IH]; intros H; [cbn; unfold psum; cbn; ring|]. cbn [map]. rewrite !(psum_cons CO CL), IH by (intros; apply H; right; auto).
  cbn [vmulp fst snd]. rewrite vadd_minus by (auto; apply H; left; reflexivity). destruct (vec_eqb _ _); cbn [ifP]; ring.
Qed.
Lemma psum_vprod_minus (X L : list vterm) ws : (forall e, In e X -> len (fst e) = len ws) -> (forall e, In e L -> len (fst e) = len ws) ->
  psum CO (fun v => vec_eqb v ws) (vprod CO X L) = csum CO (map (fun e => snd e *c psum CO (fun v => vec_eqb v (vminus ws (fst e))) L) X).
Proof.
  intros HX HL. induction X as [|a X IH]; [reflexivity|]. rewrite vprod_cons, (psum_app CO CL), IH by (intros; apply HX; right; auto).
  rewrite psum_scaled by (auto; apply HX; left; reflexivity). reflexivity.
Qed.
Lemma powl_coef us (b : series) n : forall ws, len ws = len us -> psum CO (fun v => vec_eqb v ws) (powl us b n) = power_coef KS CO us b n ws.
Proof.
  induction n as [|n IH]; intros ws L; cbn [powl power_coef].
  - unfold unit_vt. rewrite (psum_cons CO CL). cbn [fst snd]. unfold vec_eqb. destruct (list_eq_dec _ _ _), (list_eq_dec _ _ _); try congruence; cbn [ifP]; change (psum CO _ []) with (c_zero CO); ring.
  - rewrite (same_swap CO CL), psum_vprod_minus; [|intros e I; rewrite L; apply vt_len in I; exact I|intros e I; rewrite L; apply powl_len in I; exact I].
    unfold vt. rewrite map_map. f_equal. apply map_ext_in. intros e I. cbn [fst snd]. rewrite IH; [reflexivity|]. rewrite vminus_len; rewrite ?spread_len; auto.
Qed.

Definition base_ok (b : series) : Prop := WF b /\ Z.of_nat (len (s_ss b) + len (s_ss b)) <= imax size_t.
Definition same_base (a b : series) : Prop := s_ss a = s_ss b /\ Permutation (terms a) (terms b).
Definition pow_of (b : series) (i : nat) (r : series) : Prop :=
  WF r /\ s_ss r = (match i with O => [] | S _ => s_ss b end) /\ forall us, covers us b -> same CO (vt KS us r) (powl us b i).

Lemma vt_perm us (a b : series) : same_base a b -> same CO (vt KS us a) (vt KS us b).
Proof.
  intros [ES P] Q. rewrite !vt_psum. unfold nden, vden. rewrite ES. apply psum_perm; auto.
Qed.
Lemma powl_same us (a b : series) : same_base a b -> forall i, same CO (powl us a i) (powl us b i).
Proof. intros S. induction i as [|i IH]; cbn [powl]; [apply same_refl|]. apply (same_prod CO CL); [exact IH|apply vt_perm; exact S]. Qed.
Lemma same_base_sym a b : same_base a b -> same_base b a.
Proof. intros [E P]. split; [congruence|apply Permutation_sym; exact P]. Qed.
Lemma pow_of_same a b i r : same_base a b -> pow_of a i r -> pow_of b i r.
Proof.
  intros S (W & ER & H). pose proof S as [ES _]. split; [exact W|]. split; [rewrite ER; destruct i; congruence|]. intros us [SU IU].
  eapply same_trans; [apply H; split; [exact SU|rewrite ES; exact IU]|]. apply powl_same. exact S.
Qed.
(** Powers with the same symbols have the same exponents. *)
Lemma pow_of_terms b i r r' : WF b -> pow_of b i r -> pow_of b i r' -> forall k c, In (k, c) (terms r) -> exists c', In (k, c') (terms r').
Proof.
  intros Wb (W & ES & H) (W' & ES' & H') k c I. assert (EQ : s_ss r = s_ss r') by congruence. assert (IB : incl (s_ss r) (s_ss b)) by (rewrite ES; destruct i; [intros ? []|apply incl_refl]).
  assert (CV : covers (s_ss b) r) by (split; [apply (wf_ss _ _ _ _ Wb)|exact IB]). assert (CV' : covers (s_ss b) r') by (split; [apply (wf_ss _ _ _ _ Wb)|rewrite <- EQ; exact IB]).
  assert (CB : covers (s_ss b) b) by (split; [apply (wf_ss _ _ _ _ Wb)|apply incl_refl]).
  assert (X : coef KS CO (s_ss b) r' (spread (s_ss r) (s_ss b) (ks_exps KS (len (s_ss r)) k)) = c).
  { rewrite <- (coef_term KO KS CO KL CL (s_ss b) r k c W CV I). apply same_coef. eapply same_trans; [apply H'; exact CB|]. apply same_sym. apply H. exact CB. }
  assert (NZ : coef KS CO (s_ss b) r' (spread (s_ss r) (s_ss b) (ks_exps KS (len (s_ss r)) k)) <> c_zero CO) by (rewrite X; eapply (wf_nonzero _ _ _ _ W); eauto).
  apply (coef_nonzero KO KS CO KL CL _ _ _ W' CV') in NZ. destruct NZ as (k' & c' & I' & EK). exists c'. assert (k' = k); [|subst; exact I'].
  pose proof (wf_valid _ _ _ _ W k c I) as V. pose proof (wf_valid _ _ _ _ W' k' c' I') as V'. rewrite <- EQ in EK, V'. apply (kl_inj _ _ KL (len (s_ss r))); auto.
  eapply spread_inj; [exact IB| | | |exact EK]; [apply sorted_set_nodup, (wf_ss _ _ _ _ W)|apply (kl_len _ _ KL); auto|apply (kl_len _ _ KL); auto].
Qed.
Lemma unrepresentable_pow b i r r' : WF b -> pow_of b i r -> pow_of b i r' -> unrepresentable KS (s_ss b) r b -> unrepresentable KS (s_ss b) r' b.
Proof.
  intros Wb P P' U. pose proof (pow_of_terms b i r r' Wb P P') as T. pose proof P as (_ & ES & _). pose proof P' as (_ & ES' & _). assert (EQ : s_ss r' = s_ss r) by congruence. unfold unrepresentable, unrep, product_unrep in *. rewrite EQ.
  destruct U as [(k & c & I & N)|[U|([k c] & e & I & J & N)]]; [left; destruct (T k c I) as [c' I']; exists k, c'; auto|right; left; exact U|right; right]. destruct (T k c I) as [c' I']. exists (k, c'), e. auto.
Qed.
Lemma unrepresentable_same a b y : same_base a b -> unrepresentable KS (s_ss a) y a -> unrepresentable KS (s_ss b) y b.
Proof.
  intros [ES P] U. unfold unrepresentable, unrep, product_unrep in *. rewrite ES in U. destruct U as [U|[(k & c & I & N)|(d & e & I & J & N)]]; [auto| |].
  - right. left. exists k, c. split; [eapply Permutation_in; eauto|exact N].
  - right. right. exists d, e. split; [exact I|]. split; [eapply Permutation_in; eauto|exact N].
Qed.
(** The i-th power, with representable intermediate products. *)
Definition is_pow (b : series) (i : nat) (r : series) : Prop :=
  pow_of b i r /\ forall j y, (j < i)%nat -> pow_of b j y -> ~ unrepresentable KS (s_ss b) y b.
Lemma is_pow_same a b i r : same_base a b -> is_pow a i r -> is_pow b i r.
Proof.
  intros S [P N]. split; [eapply pow_of_same; eauto|]. intros j y L Py U. apply same_base_sym in S. apply (N j y L); [eapply pow_of_same; eauto|eapply unrepresentable_same; eauto].
Qed.
Lemma ident_ok a b : base_ok a -> base_ok b -> exists t, series_are_identical KO CO TO a b = Ok t /\ (t = true -> same_base a b).
Proof.
  intros [Wa _] [Wb _]. unfold series_are_identical. destruct (ss_eqb (s_ss a) (s_ss b)) eqn:ES; [|exists false; split; [reflexivity|discriminate]].
  apply ss_eqb_iff in ES. destruct (cmp_ok KO KS CO TO KL CL a b Wa Wb ES) as (r & ER & _ & P). exists r. split; [exact ER|]. intros R. split; auto.
Qed.
Lemma one_vt us (s : series) c : WF s -> s_ss s = [] -> terms s = [(k_of_ss KO [], c)] -> vt KS us s = [(repeat 0 (len us), c)].
Proof.
  intros W ES ET. unfold vt. rewrite ET, ES. cbn [map fst snd]. do 2 f_equal. 
  assert (L : ks_exps KS (len (@nil string)) (k_of_ss KO []) = []) by (destruct (kl_unit _ _ KL [] F0) as [_ H]; exact H).
  rewrite L. unfold spread. clear. induction us as [|x us IH]; [reflexivity|]. cbn [map List.length repeat]. rewrite IH. reflexivity.
Qed.
Lemma one_ok : exists o, series_of_cf KO CO PO TO (c_one CO) [] = Ok o /\ forall b, base_ok b -> is_pow b 0 o.
Proof.
  destruct (of_cf_ok KO KS CO PO TO KL CL (c_one CO) [] ltac:(constructor) F0) as (o & E & W & ES & _ & _ & ET). exists o. split; [exact E|]. intros b G.
  split; [|intros j y L; lia]. split; [exact W|]. split; [exact ES|]. intros us _. destruct (c_is_zero CO (c_one CO)) eqn:Z; [apply (cl_zero _ CL) in Z; elim (cl_one _ CL Z)|].
  rewrite (one_vt us o (c_one CO) W ES ET). apply same_refl.
Qed.

Section E.
Variable E : mul_env K C Tag.
Hypothesis EO : env_ok KO KS E.
Notation mul := (poly_mul KO CO PO TO E).
Lemma pow_bound b i r : base_ok b -> is_pow b i r -> Z.of_nat (len (s_ss r) + len (s_ss b)) <= imax size_t.
Proof. intros [_ B] [(_ & -> & _) _]. destruct i; cbn [List.length]; lia. Qed.
Lemma pow_mul_ok : mul_ok base_ok is_pow mul.
Proof.
  intros b i r r' G P M. pose proof (pow_bound b i r G P) as B. pose proof P as [PR PN]. destruct G as [Wb _], PR as (Wr & ER & H). destruct (mul_exact' KO KS CO PO TO KL CL E r b r' EO Wr Wb B M) as (W & U & NU & _).
  assert (ES : s_ss r' = s_ss b). { destruct U as [SU U]. apply sorted_ext; [exact SU|apply (wf_ss _ _ _ _ Wb)|]. intros z. rewrite U, ER. destruct i; cbn; tauto. }
  split; [|intros j y L Py; destruct (Nat.eq_dec j i) as [->|NE]; [intros UU; apply NU; rewrite ES; eapply unrepresentable_pow; [exact Wb|exact Py|exact (proj1 P)|exact UU]|apply (PN j y); [lia|exact Py]]].
  split; [exact W|]. split; [exact ES|]. intros us CV. cbn [powl]. destruct CV as [SU IU]. eapply same_trans; [apply (mul_same KO KS CO PO TO KL CL E r b r' us); auto; rewrite ES; exact IU|].
  apply (same_prod CO CL); [|apply same_refl]. apply H. split; auto.
Qed.
Lemma pow_mul_fails b i r e : base_ok b -> is_pow b i r -> mul r b = Throw e -> key_overflow (mul r b) /\ (unrepresentable KS (s_ss b) r b \/ capacity r b).
Proof.
  intros G P M. pose proof (pow_bound b i r G P) as B. destruct G as [Wb _], P as [(Wr & ER & _) _]. destruct (mul_exact KO KS CO PO TO KL CL E r b EO Wr Wb B) as (u & U & [(r' & X & _)|H]); [congruence|].
  assert (u = s_ss b) as <-; [|exact H]. destruct U as [SU U]. apply sorted_ext; [exact SU|apply (wf_ss _ _ _ _ Wb)|]. intros z. rewrite U, ER. destruct i; cbn; tauto.
Qed.
Lemma pow_mul_not_ub b i r : base_ok b -> is_pow b i r -> mul r b <> UB.
Proof.
  intros G P M. pose proof (pow_bound b i r G P) as B. destruct G as [Wb _], P as [(Wr & ER & _) _]. destruct (mul_exact KO KS CO PO TO KL CL E r b EO Wr Wb B) as (u & U & [(r' & X & _)|[[X|X] _]]); congruence.
Qed.
Definition cok := cache_ok base_ok is_pow.
Lemma cache_pow (m : @pow_cache K C Tag) x n : cok m -> base_ok x ->
  cok (snd (series_pow_from_cache KO CO PO TO mul m x n)) /\
  let out := fst (series_pow_from_cache KO CO PO TO mul m x n) in
  ((exists r, out = Ok r /\ is_pow x n r) \/
   key_overflow out /\ exists i x' y, (i < n)%nat /\ (x' = x \/ WF x' /\ same_base x' x) /\ is_pow x i y /\ (unrepresentable KS (s_ss x) y x' \/ capacity y x')).
Proof.
  intros OK G. pose proof (pow_from_cache_ok KO CO PO TO base_ok same_base is_pow ident_ok (fun a b i r _ _ => is_pow_same a b i r) (fun a b i r _ _ S => is_pow_same b a i r (same_base_sym _ _ S)) one_ok mul m x n pow_mul_ok OK G) as H.
  destruct (series_pow_from_cache KO CO PO TO mul m x n) as [out m']. cbn [fst snd]. destruct H as [H1 H2]. split; [exact H1|]. destruct H2 as [H2|(b & i & r & Gb & Sb & Pr & Li & [(e & M & ->)|[M _]])]; [left; exact H2| |elim (pow_mul_not_ub b i r Gb Pr M)].
  right. destruct (pow_mul_fails b i r e Gb Pr M) as [KV U]. split; [rewrite M in KV; destruct KV as [KV|KV]; injection KV as ->; [left|right]; reflexivity|].
  exists i, b, r. split; [exact Li|]. destruct Sb as [->|Sb]; [auto|]. split; [right; split; [apply Gb|exact Sb]|]. split; [eapply is_pow_same; eauto|]. destruct Sb as [<- _]. exact U.
Qed.
End E.
End Pow.
