(** Properties C34, C36, C27 (multiplication), C42 (multiplicativity): polynomial multiplication.  Vocabulary: SeriesSpec.v and PolySpec.v ([prod_coef]: the
    convolution; [degree_of]: the degree in the selected symbols; [env_ok]: what is assumed of sorting and of the verdict of the
    overflow check).  The environment E also chooses between the simple and the multi-threaded algorithm and the number of
    segments of the latter, so every theorem holds for both algorithms and any number of segments. *)
From Coq Require Import ZArith List Bool String Arith Sorted Permutation Lia Ring Ring_theory.
From Verif Require Import Base KpackModel KpackSpec KpackProofs P_Kpack IntModel IntSpec IntProofs SymModel SymSpec SymProofs P_Sym PMonModel PMonSpec PMonProofs PMonProofs2 P_PMon
  DPMModel DPMSpec DPMProofs DPMProofs2 DPMProofs3 P_DPM KeyOps KeyInst
  SeriesModel SeriesModel2 SeriesSpec SeriesProofs SeriesProofs2 SeriesProofs3 SeriesProofs4 SeriesProofs5 SeriesProofs6 Lin EvalSpec SeriesEval SeriesProofs7 CfInst P_Series P_Series2
  PolyModel PolyModel2 PolySpec PolyProofs7 PolyProofs8 PolyProofs9.
Import ListNotations.
Open Scope Z_scope.
Local Notation len := List.length.

Section PP.
Context {K C Tag : Type} (KO : key_ops K) (KS : key_sem K) (CO : cf_ops C) (PO : tbl_policy (K * C)) (TO : tag_ops Tag).
Context (KL : key_laws KO KS) (CL : cf_laws CO).
Notation "0c" := (c_zero CO).
Notation "a +c b" := (c_add CO a b) (at level 50, left associativity).
Notation "a *c b" := (c_mul CO a b) (at level 40, left associativity).
Notation series := (series K C Tag).
Notation exps s k := (ks_exps KS (List.length (s_ss s)) k).
Notation WF := (wf KO KS CO).
Notation coef := (coef KS CO).
Notation prod_coef := (prod_coef KS CO).
Notation mul E := (poly_mul KO CO PO TO E).
Add Ring CringP : (cl_ring _ CL).

(** Some segment of an operand, or of a result with as many terms as there are products of terms, can be full. *)
Definition capacity (x y : series) : Prop :=
  full (s_log2 x) (len (terms x)) \/ full (s_log2 y) (len (terms y)) \/
  exists lg, (lg <= max_log2_size)%nat /\ max_table_size lg < Z.of_nat (len (terms x) * len (terms y)).
(** Some term of x, of y or of the product is not representable over u. *)
Definition unrepresentable (u : symbol_set) (x y : series) : Prop := unrep KS u x \/ unrep KS u y \/ product_unrep KS u x y.

(** C34. The product is the convolution, over the union of the symbols; or it is not representable and an exception is
    thrown. *)
Theorem mul_exact : forall E (x y : series), env_ok KO KS E -> WF x -> WF y -> Z.of_nat (len (s_ss x) + len (s_ss y)) <= imax size_t ->
  exists u, union_of (s_ss x) (s_ss y) u /\
  ((exists r, mul E x y = Ok r /\ WF r /\ s_ss r = u /\ s_tag r = tag_default TO /\ ~ unrepresentable u x y /\
      forall us ws, sorted_set us -> incl u us -> coef us r ws = prod_coef us x y ws) \/
   (key_overflow (mul E x y) /\ (unrepresentable u x y \/ capacity x y))).
Proof.
  intros E x y EO Wx Wy B. destruct (switch_ok KO KS CO PO TO E KL CL EO all_symbols 0 None x y Wx Wy B (fun _ _ => I)) as (u & U & H). exists u. split; [exact U|].
  destruct H as [(r & ER & W & SR & TR & NP & [NX NY] & D & _)|[ER H]].
  - left. exists r. split; [exact ER|]. split; [exact W|]. split; [exact SR|]. split; [exact TR|]. split; [unfold unrepresentable; tauto|]. intros us ws SU IU.
    rewrite coef_nden, D by auto. apply (bil_kept KS CO all_symbols 0 None us x y ws).
  - right. split; [exact ER|]. unfold unrepresentable, capacity. destruct H as [H|[H|[H|[[N _]|[H|[H|H]]]]]]; try tauto.
Qed.

Lemma union_unique x y u u' : union_of x y u -> union_of x y u' -> u = u'.
Proof. intros [S1 U1] [S2 U2]. apply sorted_ext; auto. intros z. rewrite U1, U2. tauto. Qed.

Lemma mul_exact' E (x y r : series) : env_ok KO KS E -> WF x -> WF y -> Z.of_nat (len (s_ss x) + len (s_ss y)) <= imax size_t -> mul E x y = Ok r ->
  WF r /\ union_of (s_ss x) (s_ss y) (s_ss r) /\ ~ unrepresentable (s_ss r) x y /\ (forall us ws, sorted_set us -> incl (s_ss r) us -> coef us r ws = prod_coef us x y ws).
Proof.
  intros EO Wx Wy B ER. destruct (mul_exact E x y EO Wx Wy B) as (u & U & [(r' & ER' & W & SR & _ & N & D)|[[X|X] _]]); try congruence.
  assert (r' = r) by congruence. subst r'. rewrite SR. auto.
Qed.

(** The product of lists of terms. *)
Lemma mul_same E (x y r : series) us : env_ok KO KS E -> WF x -> WF y -> Z.of_nat (len (s_ss x) + len (s_ss y)) <= imax size_t -> mul E x y = Ok r ->
  sorted_set us -> incl (s_ss r) us -> same CO (vt KS us r) (vprod CO (vt KS us x) (vt KS us y)).
Proof.
  intros EO Wx Wy B ER SU IU. apply (same_eqb CO CL). intros v. destruct (mul_exact' E x y r EO Wx Wy B ER) as (_ & _ & _ & D).
  rewrite vt_psum, <- coef_nden, D by auto. rewrite psum_vprod. symmetry. apply bil_prod_coef.
Qed.
Lemma same_coef us (x y : series) ws : same CO (vt KS us x) (vt KS us y) -> coef us x ws = coef us y ws.
Proof. intros H. rewrite !coef_nden, <- !vt_psum. apply H. Qed.

(** C34. Commutativity, associativity, distributivity, as polynomials. *)
Theorem mul_commutative : forall E E' (x y r r' : series), env_ok KO KS E -> env_ok KO KS E' -> WF x -> WF y -> Z.of_nat (len (s_ss x) + len (s_ss y)) <= imax size_t ->
  mul E x y = Ok r -> mul E' y x = Ok r' -> s_ss r = s_ss r' /\ forall us ws, covers us r -> coef us r ws = coef us r' ws.
Proof.
  intros E E' x y r r' EO EO' Wx Wy B ER ER'. assert (B' : Z.of_nat (len (s_ss y) + len (s_ss x)) <= imax size_t) by (rewrite Nat.add_comm; exact B).
  destruct (mul_exact' E x y r EO Wx Wy B ER) as (_ & U & _). destruct (mul_exact' E' y x r' EO' Wy Wx B' ER') as (_ & U' & _).
  assert (ES : s_ss r = s_ss r') by (apply (union_unique (s_ss x) (s_ss y)); [exact U|]; destruct U' as [S1 U1]; split; [exact S1|]; intros z; rewrite U1; tauto).
  split; [exact ES|]. intros us ws [SU IU]. apply same_coef.
  eapply same_trans; [apply (mul_same E x y r us); auto|]. eapply same_trans; [apply (same_swap CO CL)|]. apply same_sym. apply (mul_same E' y x r' us); auto. rewrite <- ES. exact IU.
Qed.

Theorem mul_associative : forall E (x y z xy xy_z yz x_yz : series), env_ok KO KS E -> WF x -> WF y -> WF z ->
  Z.of_nat (len (s_ss x) + len (s_ss y) + len (s_ss z)) <= imax size_t ->
  mul E x y = Ok xy -> mul E xy z = Ok xy_z -> mul E y z = Ok yz -> mul E x yz = Ok x_yz ->
  s_ss xy_z = s_ss x_yz /\ forall us ws, covers us xy_z -> coef us xy_z ws = coef us x_yz ws.
Proof.
  intros E x y z xy xy_z yz x_yz EO Wx Wy Wz B E1 E2 E3 E4.
  assert (UL : forall (a b c : symbol_set), union_of a b c -> NoDup a -> NoDup b -> (len c <= len a + len b)%nat).
  { intros a b c [S U] _ _. rewrite <- app_length. apply NoDup_incl_length; [apply sorted_set_nodup; exact S|]. intros w I. apply in_or_app. apply U. exact I. }
  assert (ND : forall s : series, WF s -> NoDup (s_ss s)) by (intros s W; apply sorted_set_nodup, (wf_ss _ _ _ _ W)).
  destruct (mul_exact' E x y xy EO Wx Wy ltac:(lia) E1) as (W1 & U1 & _). pose proof (UL _ _ _ U1 (ND x Wx) (ND y Wy)) as L1.
  destruct (mul_exact' E xy z xy_z EO W1 Wz ltac:(lia) E2) as (W2 & U2 & _).
  destruct (mul_exact' E y z yz EO Wy Wz ltac:(lia) E3) as (W3 & U3 & _). pose proof (UL _ _ _ U3 (ND y Wy) (ND z Wz)) as L3.
  destruct (mul_exact' E x yz x_yz EO Wx W3 ltac:(lia) E4) as (W4 & U4 & _).
  assert (ES : s_ss xy_z = s_ss x_yz). { destruct U1 as [_ U1], U2 as [S2 U2], U3 as [_ U3], U4 as [S4 U4]. apply sorted_ext; auto. intros w. rewrite U2, U4, U1, U3. tauto. }
  split; [exact ES|]. intros us ws [SU IU]. apply same_coef.
  assert (I1 : incl (s_ss xy) us) by (intros w I; apply IU, U2; auto). assert (I4 : incl (s_ss x_yz) us) by (rewrite <- ES; exact IU). assert (I3 : incl (s_ss yz) us) by (intros w I; apply I4, U4; auto).
  eapply same_trans; [apply (mul_same E xy z xy_z us); auto; lia|]. eapply same_trans; [apply (same_prod CO CL); [apply (mul_same E x y xy us); auto; lia|apply same_refl]|].
  rewrite (vprod_assoc CO CL). apply same_sym. eapply same_trans; [apply (mul_same E x yz x_yz us); auto; lia|]. apply (same_prod CO CL); [apply same_refl|]. apply (mul_same E y z yz us); auto; lia.
Qed.

Theorem mul_distributive : forall E (x y z s xs xy xz : series), env_ok KO KS E -> WF x -> WF y -> WF z ->
  Z.of_nat (len (s_ss x) + len (s_ss y) + len (s_ss z)) <= imax size_t ->
  series_add KO CO PO TO y z = Ok s -> mul E x s = Ok xs -> mul E x y = Ok xy -> mul E x z = Ok xz ->
  forall us ws, covers us xs -> coef us xs ws = coef us xy ws +c coef us xz ws.
Proof.
  intros E x y z s xs xy xz EO Wx Wy Wz B E0 E1 E2 E3 us ws [SU IU].
  pose proof (add_sub_exact KO KS CO PO TO KL CL true y z Wy Wz ltac:(lia)) as A. cbv zeta in A. rewrite E0 in A. destruct A as [(s' & [= <-] & Ws & U0 & _ & _ & D0)|[[?|?] _]]; try discriminate.
  assert (L : (len (s_ss s) <= len (s_ss y) + len (s_ss z))%nat). { destruct U0 as [S U]. rewrite <- app_length. apply NoDup_incl_length; [apply sorted_set_nodup; exact S|]. intros w I. apply in_or_app. apply U. exact I. }
  destruct (mul_exact' E x s xs EO Wx Ws ltac:(lia) E1) as (W1 & U1 & _). destruct (mul_exact' E x y xy EO Wx Wy ltac:(lia) E2) as (W2 & U2 & _). destruct (mul_exact' E x z xz EO Wx Wz ltac:(lia) E3) as (W3 & U3 & _).
  assert (I2 : incl (s_ss xy) us). { intros w I. apply IU. apply U2 in I. apply U1. destruct I as [I|I]; [left; exact I|right]. apply U0. auto. }
  assert (I3 : incl (s_ss xz) us). { intros w I. apply IU. apply U3 in I. apply U1. destruct I as [I|I]; [left; exact I|right]. apply U0. auto. }
  assert (SM : same CO (vt KS us s) (vt KS us y ++ vt KS us z)). { apply (same_eqb CO CL). intros v. rewrite (psum_app CO CL), !vt_psum, <- !coef_nden. apply D0. }
  rewrite !coef_nden, <- !vt_psum, <- (psum_app CO CL).
  rewrite (mul_same E x s xs us EO Wx Ws ltac:(lia) E1 SU IU).
  rewrite (same_swap CO CL). rewrite (same_prod CO CL _ _ _ _ SM (same_refl CO _)). rewrite vprod_app, !(psum_app CO CL).
  rewrite (mul_same E x y xy us), (mul_same E x z xz us) by (auto; lia). rewrite (same_swap CO CL (vt KS us y)), (same_swap CO CL (vt KS us z)). reflexivity.
Qed.

(** C27, C34. Neither the algorithm, the number of segments, the sorting, the schedule nor the segmentation of the operands changes the product; success depends
    on them only through the capacity of the tables. *)
Theorem mul_unobservable : forall E E' (x x' y y' : series), env_ok KO KS E -> env_ok KO KS E' -> WF x -> WF x' -> WF y -> WF y' ->
  resegmented x x' -> resegmented y y' -> Z.of_nat (len (s_ss x) + len (s_ss y)) <= imax size_t ->
  (forall r r', mul E x y = Ok r -> mul E' x' y' = Ok r' -> s_ss r = s_ss r' /\ forall us ws, covers us r -> coef us r ws = coef us r' ws) /\
  (forall r, mul E x y = Ok r -> (exists r', mul E' x' y' = Ok r') \/ capacity x' y').
Proof.
  intros E E' x x' y y' EO EO' Wx Wx' Wy Wy' Rx Ry B. pose proof Rx as (Ex & Tx & Px). pose proof Ry as (Ey & Ty & Py).
  assert (B' : Z.of_nat (len (s_ss x') + len (s_ss y')) <= imax size_t) by (rewrite Ex, Ey; exact B).
  assert (VX : forall (a a' : series) us, resegmented a a' -> same CO (vt KS us a) (vt KS us a')).
  { intros a a' us R. apply (same_eqb CO CL). intros v. rewrite !vt_psum, <- !coef_nden. symmetry. apply (reseg_coef KS CO CL). exact R. }
  split.
  - intros r r' ER ER'. destruct (mul_exact' E x y r EO Wx Wy B ER) as (_ & U & _). destruct (mul_exact' E' x' y' r' EO' Wx' Wy' B' ER') as (_ & U' & _).
    assert (ES : s_ss r = s_ss r') by (rewrite Ex, Ey in U'; eapply union_unique; eauto). split; [exact ES|]. intros us ws [SU IU]. apply same_coef.
    eapply same_trans; [apply (mul_same E x y r us); auto|]. apply same_sym. eapply same_trans; [apply (mul_same E' x' y' r' us); auto; rewrite <- ES; exact IU|]. apply (same_prod CO CL); apply same_sym; auto.
  - intros r ER. destruct (mul_exact' E x y r EO Wx Wy B ER) as (_ & U & NU & _).
    destruct (mul_exact E' x' y' EO' Wx' Wy' B') as (u & U' & [(r' & ER' & _)|[_ [H|H]]]); [left; eauto| |right; exact H].
    exfalso. apply NU. rewrite Ex, Ey in U'. assert (u = s_ss r) as -> by (eapply union_unique; eauto). unfold unrepresentable, unrep, product_unrep in *. rewrite Ex, Ey in H.
    destruct H as [(k & c & J & N)|[(k & c & J & N)|(a & b & Ja & Jb & N)]].
    + left. exists k, c. split; [eapply Permutation_in; eauto|exact N].
    + right. left. exists k, c. split; [eapply Permutation_in; eauto|exact N].
    + right. right. exists a, b. split; [eapply Permutation_in; eauto|]. split; [eapply Permutation_in; eauto|exact N].
Qed.

(** C36. With a truncation argument that is exact (see below for the key types), the result consists of the terms of the product whose degree in the
    selected symbols does not exceed the limit. *)
Theorem truncated_mul_exact : forall E sel lim t (x y : series), env_ok KO KS E -> WF x -> WF y -> Z.of_nat (len (s_ss x) + len (s_ss y)) <= imax size_t ->
  (forall u, union_of (s_ss x) (s_ss y) u -> trunc_exact KS sel lim u t) ->
  exists u, union_of (s_ss x) (s_ss y) u /\
  ((exists r, poly_mul_switch KO CO PO TO E (Some t) x y = Ok r /\ WF r /\ s_ss r = u /\ s_tag r = tag_default TO /\ ~ unrepresentable u x y /\
      forall us ws, sorted_set us -> incl u us -> coef us r ws = if degree_of sel us ws <=? lim then prod_coef us x y ws else 0c) \/
   (key_overflow (poly_mul_switch KO CO PO TO E (Some t) x y) /\
    (unrepresentable u x y \/ degree_unrep KS sel u x \/ degree_unrep KS sel u y \/ capacity x y))).
Proof.
  intros E sel lim t x y EO Wx Wy B TE. destruct (switch_ok KO KS CO PO TO E KL CL EO sel lim (Some t) x y Wx Wy B TE) as (u & U & H). exists u. split; [exact U|].
  destruct H as [(r & ER & W & SR & TR & NP & [NX NY] & D & _)|[ER H]].
  - left. exists r. split; [exact ER|]. split; [exact W|]. split; [exact SR|]. split; [exact TR|]. split; [unfold unrepresentable; tauto|]. intros us ws SU IU.
    rewrite coef_nden, D by auto. apply (bil_kept KS CO sel lim (Some t) us x y ws).
  - right. split; [exact ER|]. unfold unrepresentable, capacity. destruct H as [H|[H|[H|[[N H]|[H|[H|H]]]]]]; tauto.
Qed.

(** C36. Hence truncating the product: same symbols, and exactly the terms of the product within the limit. *)
Theorem truncated_mul_is_truncation : forall E E' sel lim t (x y p r : series), env_ok KO KS E -> env_ok KO KS E' -> WF x -> WF y ->
  Z.of_nat (len (s_ss x) + len (s_ss y)) <= imax size_t ->
  (forall u, union_of (s_ss x) (s_ss y) u -> trunc_exact KS sel lim u t) ->
  mul E x y = Ok p -> poly_mul_switch KO CO PO TO E' (Some t) x y = Ok r ->
  s_ss r = s_ss p /\ forall k c, In (k, c) (terms r) <-> In (k, c) (terms p) /\ degree_of sel (s_ss p) (exps p k) <= lim.
Proof.
  intros E E' sel lim t x y p r EO EO' Wx Wy B TE EP ER.
  destruct (mul_exact' E x y p EO Wx Wy B EP) as (WP & UP & _ & DP).
  destruct (truncated_mul_exact E' sel lim t x y EO' Wx Wy B TE) as (u & U & [(r' & ER' & WR & SR & _ & _ & DR)|[[X|X] _]]); try congruence.
  assert (r' = r) by congruence. subst r'. assert (u = s_ss p) as -> by (eapply union_unique; eauto). split; [exact SR|].
  assert (SU := wf_ss _ _ _ _ WP).
  assert (T : forall (s : series) k c, WF s -> s_ss s = s_ss p -> (In (k, c) (terms s) <-> c <> 0c /\ ks_valid KS (len (s_ss p)) k /\ coef (s_ss p) s (exps p k) = c)).
  { intros s k c W SS. assert (CV : covers (s_ss p) s) by (split; [exact SU|rewrite SS; apply incl_refl]).
    assert (SE : forall k', ks_valid KS (len (s_ss p)) k' -> spread (s_ss s) (s_ss p) (exps s k') = exps p k').
    { intros k' V. rewrite SS. apply spread_self; [apply sorted_set_nodup; exact SU|apply (kl_len _ _ KL); exact V]. }
    split.
    - intros J. assert (V : ks_valid KS (len (s_ss p)) k) by (rewrite <- SS; eapply wf_valid; eauto). split; [eapply wf_nonzero; eauto|]. split; [exact V|].
      rewrite <- (SE k V). apply (coef_term KO KS CO KL CL); auto.
    - intros (NZ & V & EC). assert (X : coef (s_ss p) s (exps p k) <> 0c) by congruence. apply (coef_nonzero KO KS CO KL CL) in X as (k' & c' & J & EK); auto.
      assert (V' : ks_valid KS (len (s_ss p)) k') by (rewrite <- SS; eapply wf_valid; eauto). rewrite SE in EK by exact V'. assert (k' = k) as -> by (eapply (kl_inj _ _ KL); eauto).
      assert (c' = c) as ->; [|exact J]. rewrite <- EC, <- (SE k V). symmetry. apply (coef_term KO KS CO KL CL); auto. }
  intros k c. rewrite (T r k c WR SR), (T p k c WP eq_refl). rewrite DR, DP by (auto; apply incl_refl). destruct (Z.leb_spec (degree_of sel (s_ss p) (exps p k)) lim); intuition congruence || lia.
Qed.

(** C42. Evaluation is multiplicative. *)
Context {V U : Type} (vzero vone : V) (va vm vs : V -> V -> V) (vo : V -> V) (VR : ring_theory vzero vone va vm vs vo (@eq V)).
Context (vpow : U -> Z -> res V) (pw : U -> Z -> V) (ceval : C -> res V) (h : C -> V).
Context (HC : forall c, ceval c = Ok (h c)) (h0 : h (c_zero CO) = vzero) (h1 : forall a b, h (c_add CO a b) = va (h a) (h b)) (hm : forall a b, h (c_mul CO a b) = vm (h a) (h b)).
Add Ring VringP : VR.
Lemma expo_in (Ex : Z -> Prop) ss : forall v z, Ex 0 -> Forall Ex v -> Ex (expo ss v z).
Proof. induction ss as [|y ss IH]; intros [|e v] z H0 H; auto. inversion_clear H. cbn [expo]. destruct (String.eqb y z); auto. Qed.
Lemma mono_vadd (Ex : Z -> Prop) (m : symbol_map U) (ss us : symbol_set) v w : sorted_set (map fst m) -> pow_adds vm pw Ex m ->
  NoDup ss -> len v = len ss -> len w = len ss -> Forall Ex v -> Forall Ex w -> mono vone vm pw m ss (vadd v w) us = vm (mono vone vm pw m ss v us) (mono vone vm pw m ss w us).
Proof.
  intros Hm [E0 PA] N L1 L2 F1 F2. unfold mono. induction us as [|z us IH]; cbn [map fold_right]; [ring|]. rewrite IH. unfold factor. destruct (assoc m z) as [u|] eqn:EA; [|ring].
  rewrite expo_vadd by (auto; congruence). apply (assoc_in CO vzero vone va vm vs vo VR vpow pw h h0 m z u (sorted_set_nodup _ Hm)) in EA. rewrite (PA _ _ _ _ EA) by (apply expo_in; auto). ring.
Qed.
Lemma vt_in (Ex : Z -> Prop) us (s : series) e : Ex 0 -> expos_in KS Ex s -> In e (vt KS us s) -> len (fst e) = len us /\ Forall Ex (fst e).
Proof.
  intros E0 H I. unfold vt in I. apply in_map_iff in I as ([k c] & <- & I). cbn [fst]. split; [apply spread_len|]. unfold spread. apply Forall_forall. intros y J. apply in_map_iff in J as (z & <- & _). apply expo_in; auto. eapply H; eauto.
Qed.
Lemma value_mul E (Ex : Z -> Prop) (m : symbol_map U) (x y r : series) : env_ok KO KS E -> WF x -> WF y -> sorted_set (map fst m) ->
  Z.of_nat (len (s_ss x) + len (s_ss y)) <= imax size_t -> pow0 vone pw m -> pow_adds vm pw Ex m -> expos_in KS Ex x -> expos_in KS Ex y ->
  mul E x y = Ok r -> value KS vzero vone va vm pw h m r = vm (value KS vzero vone va vm pw h m x) (value KS vzero vone va vm pw h m y).
Proof.
  intros EO Wx Wy Hm B P0 PA XX XY ER. destruct (mul_exact' E x y r EO Wx Wy B ER) as (Wr & [SU UU] & _).
  assert (Cr : covers (s_ss r) r) by (split; [exact SU|apply incl_refl]). assert (Cx : covers (s_ss r) x) by (split; [exact SU|intros z I; apply UU; auto]). assert (Cy : covers (s_ss r) y) by (split; [exact SU|intros z I; apply UU; auto]).
  rewrite !(value_lin KO KS CO vzero vone va vm vs vo VR vpow pw h h0 m (s_ss r)) by auto.
  rewrite (lin_ext CO vzero vone va vm vs vo VR (list_eq_dec Z.eq_dec) h h0 h1 _ (vt KS (s_ss r) r) (vprod CO (vt KS (s_ss r) x) (vt KS (s_ss r) y))).
  2: { intros a. apply (mul_same E x y r (s_ss r)); auto. apply incl_refl. }
  apply (lin_vprod CO vzero vone va vm vs vo VR h hm).
  intros e e' I J. destruct (vt_in Ex _ x e (proj1 PA) XX I), (vt_in Ex _ y e' (proj1 PA) XY J). apply (mono_vadd Ex); auto. apply sorted_set_nodup; auto.
Qed.
(** The exponents of a product. *)
Lemma mul_expos E (Ex : Z -> Prop) (x y r : series) : env_ok KO KS E -> WF x -> WF y -> Z.of_nat (len (s_ss x) + len (s_ss y)) <= imax size_t ->
  Ex 0 -> (forall a b, Ex a -> Ex b -> Ex (a + b)) -> expos_in KS Ex x -> expos_in KS Ex y -> mul E x y = Ok r -> expos_in KS Ex r.
Proof.
  intros EO Wx Wy B E0 EA XX XY ER k c I. destruct (mul_exact' E x y r EO Wx Wy B ER) as (Wr & [SU UU] & _). assert (Cr : covers (s_ss r) r) by (split; [exact SU|apply incl_refl]).
  assert (NZ := wf_nonzero _ _ _ _ Wr k c I). rewrite <- (coef_term KO KS CO KL CL (s_ss r) r k c Wr Cr I), coef_nden, <- vt_psum in NZ.
  rewrite (mul_same E x y r (s_ss r) EO Wx Wy B ER SU (incl_refl _)) in NZ. rewrite spread_self in NZ; [|apply sorted_set_nodup; auto|apply (kl_len _ _ KL), (wf_valid _ _ _ _ Wr k c I)].
  assert (G : forall l : list (list Z * C), psum CO (fun v => vec_eqb v (exps r k)) l <> 0c -> exists e, In e l /\ fst e = exps r k).
  { induction l as [|e l IH]; intros H; [elim H; reflexivity|]. rewrite (psum_cons CO CL) in H. unfold vec_eqb at 1 in H. destruct (list_eq_dec Z.eq_dec (fst e) (exps r k)) as [Q|Q]; [exists e; split; [left; reflexivity|exact Q]|].
    destruct IH as (e' & J & Q'); [intros Z; apply H; rewrite Z; cbn [ifP]; ring|]. exists e'. split; [right; exact J|exact Q']. }
  destruct (G _ NZ) as (e & J & <-). unfold vprod in J. apply in_map_iff in J as ([a b] & <- & J). apply in_prod_iff in J as [J1 J2]. destruct (vt_in Ex _ x a E0 XX J1) as [L1 F1], (vt_in Ex _ y b E0 XY J2) as [L2 F2]. cbn [vmulp fst snd].
  unfold vadd. apply Forall_forall. intros z K1. apply in_map_iff in K1 as ([p q] & <- & K1). apply EA; [apply (proj1 (Forall_forall _ _) F1); eapply in_combine_l; eauto|apply (proj1 (Forall_forall _ _) F2); eapply in_combine_r; eauto].
Qed.

Theorem evaluate_multiplicative : forall E (Ex : Z -> Prop) (m : symbol_map U) (x y r : series), env_ok KO KS E -> WF x -> WF y -> sorted_set (map fst m) ->
  Z.of_nat (len (s_ss x) + len (s_ss y)) <= imax size_t ->
  incl (s_ss x) (map fst m) -> incl (s_ss y) (map fst m) ->
  pow0 vone pw m -> pow_adds vm pw Ex m -> expos_in KS Ex x -> expos_in KS Ex y ->
  mul E x y = Ok r -> powers_exist KS vpow pw m x -> powers_exist KS vpow pw m y -> powers_exist KS vpow pw m r ->
  exists a b, series_evaluate KO vzero vone va vm vpow ceval x m = Ok a /\ series_evaluate KO vzero vone va vm vpow ceval y m = Ok b /\
    series_evaluate KO vzero vone va vm vpow ceval r m = Ok (vm a b).
Proof.
  intros E Ex m x y r EO Wx Wy Hm B Ix Iy P0 PA XX XY ER PX PY PR. destruct (mul_exact' E x y r EO Wx Wy B ER) as (Wr & [SU UU] & _).
  assert (Ir : incl (s_ss r) (map fst m)) by (intros z J; apply UU in J as [J|J]; auto).
  exists (value KS vzero vone va vm pw h m x), (value KS vzero vone va vm pw h m y).
  split; [apply (evaluate_exact KO KS CO KL vzero vone va vm vs vo VR vpow pw ceval h HC h0); auto|]. split; [apply (evaluate_exact KO KS CO KL vzero vone va vm vs vo VR vpow pw ceval h HC h0); auto|].
  rewrite (proj2 (evaluate_exact KO KS CO KL vzero vone va vm vs vo VR vpow pw ceval h HC h0 m r Wr Hm) Ir PR). f_equal. eapply value_mul; eauto.
Qed.
End PP.
