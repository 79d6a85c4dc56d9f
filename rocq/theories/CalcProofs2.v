(** Differentiation and integration with another coefficient type: the loops. *)
From Coq Require Import ZArith List Bool String Arith Sorted Permutation Lia Ring Ring_theory.
From Verif Require Import Base IntModel SymModel SymSpec SymProofs P_Sym PMonSpec KeyOps
  SeriesModel SeriesModel2 SeriesSpec SeriesProofs SeriesProofs2 SeriesProofs3 SeriesProofs4 SeriesProofs5 SeriesProofs6 Lin EvalSpec SeriesEval SeriesProofs7 P_Series P_Series2
  PolyModel PolyModel2 PolySpec PolyProofs7 PolyProofs8 PolyProofs9 P_Poly PowProofs2 CalcSpec DiffProofs IntegProofs P_Calc PSModel MixModel MixModel2 MixSpec MixProofs MixProofs2 P_Mix2 SubsProofs CalcModel2.
Import ListNotations.
Open Scope Z_scope.
Open Scope res_scope.
Local Notation len := List.length.

Lemma union_self ss u : sorted_set ss -> union_of ss ss u -> u = ss.
Proof. intros S [SU IU]. apply sorted_ext; auto. intros z. rewrite IU. tauto. Qed.
Lemma union_nil ss u : sorted_set ss -> union_of [] ss u -> u = ss.
Proof. intros S [SU IU]. apply sorted_ext; auto. intros z. rewrite IU. cbn. tauto. Qed.

Section CP.
Context {K C1 C Tag : Type} (KO : key_ops K) (KS : key_sem K) (CO1 : cf_ops C1) (CO : cf_ops C) (PO1 : tbl_policy (K * C1)) (PO : tbl_policy (K * C)) (TO : tag_ops Tag).
Context (KL : key_laws KO KS) (CL1 : cf_laws CO1) (CL : cf_laws CO) (f : C1 -> C) (EF : cf_embedding CO1 CO f).
Notation arg := (series K C1 Tag).
Notation out := (series K C Tag).
Notation WF1 := (wf KO KS CO1).
Notation WF := (wf KO KS CO).
Notation exps s k := (ks_exps KS (List.length (s_ss s)) k).
Infix "+c" := (c_add CO) (at level 50, left associativity).
Infix "*c" := (c_mul CO) (at level 40, left associativity).
Add Ring CringC2 : (cl_ring _ CL).
Notation vterm := (list Z * C)%type.

(** A series whose value is the term with key k and coefficient c. *)
Definition single {D} (COD : cf_ops D) (x : arg) (k : K) (c : D) (y : series K D Tag) : Prop :=
  wf KO KS COD y /\ s_ss y = s_ss x /\ s_tag y = s_tag x /\ s_log2 y = O /\ forall P, psum COD P (terms y) = if P k then c else c_zero COD.

Lemma monomial_poly_ok (x : arg) k : WF1 x -> ks_valid KS (len (s_ss x)) k -> exists t, monomial_poly KO CO1 PO1 TO x k = Ok t /\ single CO1 x k (c_one CO1) t.
Proof.
  intros W V. unfold monomial_poly, set_symbol_set. change (series_empty (series_default TO)) with true. cbn iota. cbn [bind]. unfold clear_terms, set_tag. cbn [s_tables s_log2 s_tag s_ss series_default map].
  destruct (set_n_segments_ok KO KS CO1 (Series [[]] 0 (s_tag x) (s_ss x)) 0 ltac:(cbn; lia) (wf_ss _ _ _ _ W)) as [_ W0]. cbn [s_tag s_ss repeat Nat.pow] in W0. unfold add_term.
  destruct (add_term_gen KO KS CO1 PO1 KL CL1 true true true true false (Series [[]] 0 (s_tag x) (s_ss x)) k (c_one CO1) W0 V ltac:(discriminate) (or_introl eq_refl) (or_introl eq_refl)) as [(t & E & Wt & (N1 & N2 & N3) & _ & PS & _)|(_ & X & _)]; [|elim X; reflexivity].
  exists t. split; [exact E|]. split; [exact Wt|]. split; [exact N1|]. split; [exact N2|]. split; [exact N3|]. intros P. rewrite PS. change (terms (Series [[]] 0 (s_tag x) (s_ss x))) with (@nil (K * C1)). rewrite (psum_nil CO1).
  pose proof (cl_ring _ CL1) as [H0 _ _ _ _ _ _ _ _]. destruct (P k); cbn [ifP sg]; apply H0.
Qed.
Lemma single_empty {D} (COD : cf_ops D) (CLD : cf_laws COD) (x : arg) k c y : single COD x k c y -> c <> c_zero COD -> series_empty y = false.
Proof.
  intros (_ & _ & _ & _ & H) N. destruct (series_empty y) eqn:E; [|reflexivity]. exfalso. apply empty_terms in E. specialize (H (fun _ => true)). rewrite E, (psum_nil COD) in H. cbn in H. congruence.
Qed.
Lemma mix_scalar_mul_ok (x : arg) k t b : f (c_one CO1) = c_one CO -> single CO1 x k (c_one CO1) t -> exists y, mix_scalar_mul KO CO PO f t b = Ok y /\ single CO x k b y.
Proof.
  intros F1 (W & S & T & L & P). unfold mix_scalar_mul. rewrite (single_empty CO1 CL1 x k (c_one CO1) t); [|split; [exact W|]; auto|apply (cl_one _ CL1)]. cbn [orb].
  destruct (c_is_zero CO b) eqn:EB.
  - eexists. split; [reflexivity|]. apply (cl_zero _ CL) in EB. subst b. destruct (set_n_segments_ok KO KS CO (Series [[]] 0 (s_tag t) (s_ss t)) 0 ltac:(cbn; lia) (wf_ss _ _ _ _ W)) as [_ W0].
    split; [exact W0|]. split; [exact S|]. split; [exact T|]. split; [reflexivity|]. intros Q. change (terms _) with (@nil (K * C)) at 1. rewrite (psum_nil CO). destruct (Q k); reflexivity.
  - destruct (convert_ok KO KS CO1 CO PO KL CL CL1 f (emb_zero _ _ _ EF) (emb_add _ _ _ EF) (s_tag t) t W) as (r & ER & WR & SR & LR & TR & PR & _). rewrite ER. cbn [bind]. eexists. split; [reflexivity|].
    assert (NE : series_empty r = false). { destruct (series_empty r) eqn:E; [|reflexivity]. exfalso. apply empty_terms in E. specialize (PR (fun _ => true)). rewrite E, (psum_nil CO), P in PR. rewrite F1 in PR. apply (cl_one _ CL). symmetry. exact PR. }
    destruct (scalar_mul_ok KO KS CO KL CL r b WR) as (W2 & S2 & T2 & P2 & _). unfold series_scalar_mul in *. rewrite NE, EB in *. cbn [orb] in *.
    split; [exact W2|]. split; [rewrite S2, SR; exact S|]. split; [rewrite T2, TR; exact T|]. split; [exact (eq_trans LR L)|]. intros Q. rewrite P2, PR, P. destruct (Q k); [rewrite F1; ring|]. rewrite (emb_zero _ _ _ EF). ring.
Qed.
Lemma zero_mul_ok (x : arg) t : WF1 t -> s_ss t = s_ss x -> s_tag t = s_tag x ->
  let y := series_scalar_mul KO CO1 t (c_zero CO1) in WF1 y /\ s_ss y = s_ss x /\ s_tag y = s_tag x /\ s_log2 y = O /\ terms y = [].
Proof.
  intros W S T y. destruct (scalar_mul_ok KO KS CO1 KL CL1 t (c_zero CO1) W) as (W2 & S2 & T2 & _). fold y in W2, S2, T2. split; [exact W2|]. split; [congruence|]. split; [congruence|].
  unfold y, series_scalar_mul. replace (c_is_zero CO1 (c_zero CO1)) with true by (symmetry; apply (cl_zero _ CL1); reflexivity). rewrite orb_true_r. split; reflexivity.
Qed.

(** The accumulated value: nothing yet, or a series with the symbols of x. *)
Definition partial_sum (x : arg) (r : out) : Prop := WF r /\ s_log2 r = O /\ ((terms r = [] /\ s_ss r = []) \/ s_ss r = s_ss x).

Notation PLO := (poly_loop_ops KO CO1 CO PO1 PO TO f).
Lemma acc_ok {D} (COD : cf_ops D) (POD : tbl_policy (K * D)) (CLD : cf_laws COD) (h : D -> C) (x : arg) (r : out) (y : series K D Tag) :
  h (c_zero COD) = c_zero CO -> (forall a b, h (c_add COD a b) = h a +c h b) ->
  WF1 x -> Z.of_nat (len (s_ss x) + len (s_ss x)) <= imax size_t -> partial_sum x r -> wf KO KS COD y -> s_ss y = s_ss x -> s_log2 y = O ->
  exists r', series_in_place_addsub KO CO PO COD POD TO true h r false y = Ok r' /\ partial_sum x r' /\ s_ss r' = s_ss x /\ forall us Q, nden KS CO us r' Q = nden KS CO us r Q +c h (nden KS COD us y Q).
Proof.
  intros H0 HA Wx B (Wr & L0 & SR) Wy SY LY. pose proof (wf_ss _ _ _ _ Wx) as SX.
  assert (B2 : Z.of_nat (len (s_ss r) + len (s_ss y)) <= imax size_t) by (rewrite SY; destruct SR as [[_ ->]| ->]; cbn [List.length]; lia).
  assert (UN : forall u, union_of (s_ss r) (s_ss y) u -> u = s_ss x) by (intros u U; rewrite SY in U; destruct SR as [[_ SR]|SR]; rewrite SR in U; [apply union_nil|apply union_self]; auto).
  destruct (in_place_ok KO KS CO COD PO POD TO KL CL CLD h H0 HA true r false y Wr Wy B2 ltac:(discriminate)) as [(r' & ER & W' & S' & L' & DD & _)|[_ [(u & SU & IU & [X|X])|[[X _]|[X _]]]]].
  - assert (S2 : s_ss r' = s_ss x) by (apply UN; split; [apply (wf_ss _ _ _ _ W')|exact S']). exists r'. split; [exact ER|]. split; [split; [exact W'|split; [congruence|right; exact S2]]|]. split; [exact S2|]. intros us Q. rewrite DD. reflexivity.
  - exfalso. pose proof (UN u (conj SU IU)) as ->. destruct SR as [[TR _]|SR]; [destruct X as (k & c & I & _); rewrite TR in I; exact I|]. rewrite <- SR in X. exact (not_unrep_self KO KS CO KL r Wr X).
  - exfalso. pose proof (UN u (conj SU IU)) as ->. rewrite <- SY in X. exact (not_unrep_self KO KS COD KL y Wy X).
  - congruence.
  - congruence.
Qed.
Lemma plus_ok (x : arg) k b (z : arg) (y : out) : WF1 x -> Z.of_nat (len (s_ss x) + len (s_ss x)) <= imax size_t -> WF1 z -> s_ss z = s_ss x -> s_log2 z = O -> terms z = [] -> single CO x k b y ->
  exists s, o_plus PLO z y = Ok s /\ WF s /\ s_ss s = s_ss x /\ s_log2 s = O /\ forall us Q, nden KS CO us s Q = nden KS CO us y Q.
Proof.
  intros Wx B Wz SZ LZ TZ (Wy & SY & TY & LY & _). pose proof (wf_ss _ _ _ _ Wx) as SX. cbn [poly_loop_ops o_plus].
  assert (UN : forall u, union_of (s_ss z) (s_ss y) u -> u = s_ss x) by (intros u U; rewrite SY, SZ in U; apply union_self; auto).
  destruct (addsub_ok KO KS CO PO TO KL CL CO1 CO true (op_conv KO CO PO f) op_same z y) as [(r & ER & W & SR & LR & _ & D & _)|[_ [(u & SU & IU & [X|X])|[[X _]|[X _]]]]]; auto.
  - apply (operand_of_ok KO KS CO PO KL CL CO1 f). apply operand_conv; auto.
  - apply op_same_ok.
  - rewrite SY, SZ. exact B.
  - exists r. split; [exact ER|]. split; [exact W|]. split; [apply UN; split; [apply (wf_ss _ _ _ _ W)|exact SR]|]. split; [destruct LR; congruence|]. intros us Q. rewrite D. cbn [op_conv op_same o_conv sg].
    unfold nden at 1, vden. rewrite TZ, (psum_nil CO1), (emb_zero _ _ _ EF). ring.
  - exfalso. destruct X as (k0 & c & I & _). rewrite TZ in I. exact I.
  - exfalso. pose proof (UN u (conj SU IU)) as ->. rewrite <- SY in X. exact (not_unrep_self KO KS CO KL y Wy X).
  - congruence.
  - congruence.
Qed.
Lemma zero_start : ks_fits KS [] -> exists r0, series_of_cf KO CO PO TO (c_zero CO) [] = Ok r0 /\ WF r0 /\ s_log2 r0 = O /\ terms r0 = [] /\ s_ss r0 = [] /\ s_tag r0 = tag_default TO.
Proof.
  intros F0. destruct (of_cf_ok KO KS CO PO TO KL CL (c_zero CO) [] ltac:(constructor) F0) as (q & E & WQ & SQ & TQ & LQ & TR). exists q. replace (c_is_zero CO (c_zero CO)) with true in TR by (symmetry; apply (cl_zero _ CL); reflexivity). auto 10.
Qed.
Lemma single_nden (x : arg) k b (y : out) us Q : single CO x k b y -> nden KS CO us y Q = if Q (spread (s_ss x) us (exps x k)) then b else c_zero CO.
Proof. intros (_ & S & _ & _ & P). unfold nden, vden. rewrite P, S. reflexivity. Qed.

(** What the functions on keys give. *)
Lemma key_diff_ok (x : arg) s k c : WF1 x -> In (k, c) (terms x) -> In s (s_ss x) ->
  (exists k', k_diff KO k (ss_index (s_ss x) s) (s_ss x) = Ok (expo (s_ss x) (exps x k) s, k') /\ ks_valid KS (len (s_ss x)) k' /\
     (expo (s_ss x) (exps x k) s = 0 \/ forall us, spread (s_ss x) us (exps x k') = bump us s (-1) (spread (s_ss x) us (exps x k)))) \/
  (k_diff KO k (ss_index (s_ss x) s) (s_ss x) = Throw overflow_error /\ diff_unrep KS x s).
Proof.
  intros W I IS. assert (NDs : NoDup (s_ss x)) by (apply sorted_set_nodup, (wf_ss _ _ _ _ W)). pose proof (wf_valid _ _ _ _ W k c I) as V. assert (LE : len (exps x k) = len (s_ss x)) by (apply (kl_len _ _ KL); exact V).
  destruct (index_some s (s_ss x) IS) as [EI LI]. destruct (kl_diff _ _ KL k (s_ss x) (ss_index (s_ss x) s) V LI) as (D0 & D1 & D2).
  assert (EX : nth (ss_index (s_ss x) s) (exps x k) 0 = expo (s_ss x) (exps x k) s) by (symmetry; eapply expo_nth; eauto; apply nth_error_nth'; rewrite LE; exact LI).
  assert (SA : set_at (ss_index (s_ss x) s) (nth (ss_index (s_ss x) s) (exps x k) 0 - 1) (exps x k) = bump (s_ss x) s (-1) (exps x k)).
  { pose proof (spread_set_at (s_ss x) (s_ss x) (ss_index (s_ss x) s) (-1) (exps x k) s NDs LE EI) as H. rewrite !spread_self in H; auto. unfold set_at. rewrite app_length, firstn_length. cbn [List.length]. rewrite skipn_length. lia. }
  rewrite SA, EX in *. destruct (Z.eq_dec (expo (s_ss x) (exps x k) s) 0) as [Z0|NZ].
  - left. exists k. rewrite (D0 Z0), Z0. auto.
  - destruct (kl_fits_dec _ _ KL (bump (s_ss x) s (-1) (exps x k))) as [F|F].
    + destruct (D1 NZ F) as (k' & EK & V' & EX'). left. exists k'. split; [exact EK|]. split; [exact V'|]. right. intros us. rewrite EX', <- SA, <- EX.
      replace (nth (ss_index (s_ss x) s) (exps x k) 0 - 1) with (nth (ss_index (s_ss x) s) (exps x k) 0 + -1) by lia. apply (spread_set_at (s_ss x) us _ (-1) _ s NDs LE EI).
    + right. split; [exact (D2 NZ F)|]. exists k, c. auto.
Qed.
Lemma key_integrate_ok (x : arg) s idx k c : WF1 x -> In (k, c) (terms x) -> nth_error (s_ss x) idx = Some s ->
  (exists k', k_integrate KO k idx (s_ss x) = Ok (expo (s_ss x) (exps x k) s + 1, k') /\ ks_valid KS (len (s_ss x)) k' /\ expo (s_ss x) (exps x k) s <> -1 /\ ks_fits KS (bump (s_ss x) s 1 (exps x k)) /\
     forall us, spread (s_ss x) us (exps x k') = bump us s 1 (spread (s_ss x) us (exps x k))) \/
  (k_integrate KO k idx (s_ss x) = Throw domain_error /\ integ_domain KS x s) \/
  (k_integrate KO k idx (s_ss x) = Throw overflow_error /\ integ_unrep KS (s_ss x) x s).
Proof.
  intros W I EI. assert (NDs : NoDup (s_ss x)) by (apply sorted_set_nodup, (wf_ss _ _ _ _ W)). pose proof (wf_valid _ _ _ _ W k c I) as V. assert (LE : len (exps x k) = len (s_ss x)) by (apply (kl_len _ _ KL); exact V).
  assert (LI : (idx < len (s_ss x))%nat) by (apply nth_error_Some; congruence).
  destruct (kl_integrate _ _ KL k (s_ss x) idx V LI) as (D0 & D1 & D2).
  assert (EX : nth idx (exps x k) 0 = expo (s_ss x) (exps x k) s) by (symmetry; eapply expo_nth; eauto; apply nth_error_nth'; rewrite LE; exact LI).
  assert (SA : set_at idx (nth idx (exps x k) 0 + 1) (exps x k) = bump (s_ss x) s 1 (exps x k)).
  { pose proof (spread_set_at (s_ss x) (s_ss x) idx 1 (exps x k) s NDs LE EI) as H. rewrite !spread_self in H; auto. unfold set_at. rewrite app_length, firstn_length. cbn [List.length]. rewrite skipn_length. lia. }
  rewrite SA, EX in *. destruct (Z.eq_dec (expo (s_ss x) (exps x k) s) (-1)) as [Z1|N1].
  - right. left. rewrite (D0 Z1). split; [reflexivity|]. exists k, c. auto.
  - destruct (kl_fits_dec _ _ KL (bump (s_ss x) s 1 (exps x k))) as [F|F].
    + destruct (D1 N1 F) as (k' & EK & V' & EX'). left. exists k'. split; [exact EK|]. split; [exact V'|]. split; [exact N1|]. split; [exact F|]. intros us. rewrite EX', <- SA, <- EX. apply (spread_set_at (s_ss x) us _ 1 _ s NDs LE EI).
    + right. right. split; [exact (D2 N1 F)|]. exists k, c. split; [exact I|]. rewrite spread_self; auto.
Qed.

Variable cz : Z -> C.
Hypothesis CZ : int_embedding CO cz.
Variable cmulz : C1 -> Z -> C.
Hypothesis CM : forall c n, cmulz c n = f c *c cz n.
Hypothesis F1 : f (c_one CO1) = c_one CO.
Hypothesis F0 : ks_fits KS [].
Notation dterm := (dterm CO cz).
(** The terms of x over us, with their coefficients converted. *)
Definition fvt (x : arg) (us : symbol_set) (l : list (K * C1)) : list vterm := map (fun e => (spread (s_ss x) us (exps x (fst e)), f (snd e))) l.

Lemma diff_convert_loop (x : arg) s : WF1 x -> Z.of_nat (len (s_ss x) + len (s_ss x)) <= imax size_t ->
  (exists r, diff_convert KO CO1 CO PO1 PO TO f PLO cmulz x s = Ok r /\ WF r /\ s_log2 r = O /\ s_ss r = (if terms x then [] else s_ss x) /\
     forall us Q, covers us x -> nden KS CO us r Q = psum CO Q (map (dterm us s) (fvt x us (terms x)))) \/
  (diff_convert KO CO1 CO PO1 PO TO f PLO cmulz x s = Throw overflow_error /\ diff_unrep KS x s).
Proof.
  intros W B. unfold diff_convert. cbv zeta. destruct (zero_start F0) as (r0 & E0 & W0 & L0 & T0 & S0 & _). rewrite E0. cbn [bind].
  match goal with |- context [rfold ?f _ _] => set (step := f) end.
  set (Bad := fun q : res out => q = Throw overflow_error /\ diff_unrep KS x s).
  destruct (rfold_inv step (fun done r => partial_sum x r /\ s_ss r = (if done then [] else s_ss x) /\ forall us Q, covers us x -> nden KS CO us r Q = psum CO Q (map (dterm us s) (fvt x us done))) Bad) with (l := terms x) (pre := @nil (K * C1)) (b := r0) as [(r & E & (Wr & LR & _) & SR & D)|HB].
  - intros b [X _]. discriminate.
  - split; [split; [exact W0|split; [exact L0|left; auto]]|]. split; [exact S0|]. intros us Q _. unfold nden, vden. rewrite T0. reflexivity.
  - cbn [app]. intros p r [k c] q EQ (PSr & SR & D). assert (I : In (k, c) (terms x)) by (rewrite EQ; apply in_or_app; right; left; reflexivity).
    pose proof (wf_valid _ _ _ _ W k c I) as V. unfold step. cbn [fst snd].
    assert (NE : forall {X} (a b : X), match p ++ [(k, c)] with [] => a | _ :: _ => b end = b) by (intros X a b; destruct p; reflexivity).
    destruct (monomial_poly_ok x k W V) as (t1 & ET & (Wt & St & Tt & _)). rewrite ET. cbn [bind]. destruct (zero_mul_ok x t1 Wt St Tt) as (Wz & Sz & Tz & Lz & Nz). set (z := series_scalar_mul KO CO1 t1 (c_zero CO1)) in *.
    destruct (in_dec string_dec s (s_ss x)) as [IS|IS].
    + destruct (index_some s (s_ss x) IS) as [_ LI]. assert (negb (Nat.eqb (ss_index (s_ss x) s) (len (s_ss x))) = true) as -> by (apply negb_true_iff, Nat.eqb_neq; lia).
      destruct (key_diff_ok x s k c W I IS) as [(k' & EK & V' & SP)|[EK H]]; rewrite EK; [|right; split; [reflexivity|exact H]]. cbn [bind].
      destruct (monomial_poly_ok x k' W V') as (t2 & ET2 & ST2). rewrite ET2. cbn [bind]. destruct (mix_scalar_mul_ok x k' t2 (cmulz c (expo (s_ss x) (exps x k) s)) F1 ST2) as (y & EY & SY). rewrite EY. cbn [bind].
      destruct (plus_ok x k' _ z y W B Wz Sz Lz Nz SY) as (sm & ES & Wsm & Ssm & Lsm & Dsm). rewrite ES. cbn [bind].
      destruct (acc_ok CO PO CL (fun c => c) x r sm eq_refl (fun _ _ => eq_refl) W B PSr Wsm Ssm Lsm) as (r' & ER & PS' & SR' & D'). left. exists r'. cbn [poly_loop_ops o_acc]. split; [exact ER|]. split; [exact PS'|]. split; [rewrite NE; exact SR'|].
      intros us Q CV. rewrite D', D, Dsm by exact CV. unfold fvt. rewrite !map_app. rewrite (psum_app CO CL). f_equal. cbn [map fst snd]. rewrite (psum_cons CO CL), (psum_nil CO). cbn [DiffProofs.dterm fst snd].
      rewrite (single_nden x k' _ y us Q SY), CM, expo_spread' by (try apply CV; apply sorted_set_nodup, CV). destruct SP as [Z0|SP]; [rewrite Z0, (ie_zero _ _ CZ); destruct (Q (spread _ _ _)), (Q (bump _ _ _ _)); cbn [ifP]; ring|].
      rewrite SP. destruct (Q _); cbn [ifP]; ring.
    + rewrite (index_none s _ IS), Nat.eqb_refl. cbn [negb].
      destruct (acc_ok CO1 PO1 CL1 f x r z (emb_zero _ _ _ EF) (emb_add _ _ _ EF) W B PSr Wz Sz Lz) as (r' & ER & PS' & SR' & D'). left. exists r'. cbn [poly_loop_ops o_acc1]. split; [exact ER|]. split; [exact PS'|]. split; [rewrite NE; exact SR'|].
      intros us Q CV. rewrite D', D by exact CV. unfold nden at 1, vden. rewrite Nz, (psum_nil CO1), (emb_zero _ _ _ EF). unfold fvt. rewrite !map_app. rewrite (psum_app CO CL). f_equal. cbn [map fst snd]. rewrite (psum_cons CO CL), (psum_nil CO). cbn [DiffProofs.dterm fst snd].
      rewrite expo_spread' by (try apply CV; apply sorted_set_nodup, CV). rewrite expo_notin by exact IS. rewrite (ie_zero _ _ CZ). destruct (Q _); cbn [ifP]; ring.
  - left. exists r. split; [exact E|]. split; [exact Wr|]. split; [exact LR|]. split; [exact SR|exact D].
  - right. exact HB.
Qed.

(** ** Integration *)
Variable cdiv : C1 -> Z -> res C.
Hypothesis CD : forall c n, n <> 0 -> exists q, cdiv c n = Ok q.
Definition quot1 (c : C1) (n : Z) : C := match cdiv c n with Ok q => q | _ => c_zero CO end.
Lemma quot1_ok c n : n <> 0 -> cdiv c n = Ok (quot1 c n).
Proof. intros N. destruct (CD c n N) as (q & E). unfold quot1. rewrite E. reflexivity. Qed.
Definition iterm1 (us : symbol_set) (s : string) (a : list Z * C1) : vterm := (bump us s 1 (fst a), quot1 (snd a) (expo us (fst a) s + 1)).

Lemma integrate_convert_loop (x : arg) s idx : WF1 x -> Z.of_nat (len (s_ss x) + len (s_ss x)) <= imax size_t -> nth_error (s_ss x) idx = Some s ->
  (exists r, integrate_convert_at KO CO1 CO PO1 PO TO f PLO cdiv x idx = Ok r /\ WF r /\ s_log2 r = O /\ s_ss r = (if terms x then [] else s_ss x) /\ ~ integ_domain KS x s /\ ~ integ_unrep KS (s_ss x) x s /\
     forall us Q, covers us x -> nden KS CO us r Q = psum CO Q (map (iterm1 us s) (vt KS us x))) \/
  (integrate_convert_at KO CO1 CO PO1 PO TO f PLO cdiv x idx = Throw domain_error /\ integ_domain KS x s) \/
  (integrate_convert_at KO CO1 CO PO1 PO TO f PLO cdiv x idx = Throw overflow_error /\ integ_unrep KS (s_ss x) x s).
Proof.
  intros W B EI. unfold integrate_convert_at. cbv zeta. destruct (zero_start F0) as (r0 & E0 & W0 & L0 & T0 & S0 & _). rewrite E0. cbn [bind].
  match goal with |- context [rfold ?f _ _] => set (step := f) end.
  set (Bad := fun q : res out => q = Throw domain_error /\ integ_domain KS x s \/ q = Throw overflow_error /\ integ_unrep KS (s_ss x) x s).
  set (vts := fun us (l : list (K * C1)) => map (fun e : K * C1 => (spread (s_ss x) us (exps x (fst e)), snd e)) l).
  destruct (rfold_inv step (fun done r => partial_sum x r /\ s_ss r = (if done then [] else s_ss x) /\ (forall us Q, covers us x -> nden KS CO us r Q = psum CO Q (map (iterm1 us s) (vts us done))) /\
     forall k c, In (k, c) done -> expo (s_ss x) (exps x k) s <> -1 /\ ks_fits KS (bump (s_ss x) s 1 (exps x k))) Bad) with (l := terms x) (pre := @nil (K * C1)) (b := r0) as [(r & E & (Wr & LR & _) & SR & D & HP)|HB].
  - intros b [[X _]|[X _]]; discriminate.
  - split; [split; [exact W0|split; [exact L0|left; auto]]|]. split; [exact S0|]. split; [|intros ? ? []]. intros us Q _. unfold nden, vden. rewrite T0. reflexivity.
  - cbn [app]. intros p r [k c] q EQ (PSr & SR & D & HP). assert (I : In (k, c) (terms x)) by (rewrite EQ; apply in_or_app; right; left; reflexivity). unfold step. cbn [fst snd].
    assert (NE : forall {X} (a b : X), match p ++ [(k, c)] with [] => a | _ :: _ => b end = b) by (intros X a b; destruct p; reflexivity).
    destruct (key_integrate_ok x s idx k c W I EI) as [(k' & EK & V' & N1 & FT & SP)|[[EK H]|[EK H]]]; rewrite EK; [|right; left; split; [reflexivity|exact H]|right; right; split; [reflexivity|exact H]]. cbn [bind].
    destruct (monomial_poly_ok x k' W V') as (t2 & ET2 & ST2). rewrite ET2. cbn [bind]. rewrite quot1_ok by lia. cbn [bind].
    destruct (mix_scalar_mul_ok x k' t2 (quot1 c (expo (s_ss x) (exps x k) s + 1)) F1 ST2) as (y & EY & SY). rewrite EY. cbn [bind]. pose proof SY as (Wy & Sy & _ & Ly & _).
    destruct (acc_ok CO PO CL (fun c => c) x r y eq_refl (fun _ _ => eq_refl) W B PSr Wy Sy Ly) as (r' & ER & PS' & SR' & D'). left. exists r'. cbn [poly_loop_ops o_acc]. split; [exact ER|]. split; [exact PS'|]. split; [rewrite NE; exact SR'|]. split.
    + intros us Q CV. rewrite D', D by exact CV. unfold vts. rewrite !map_app. rewrite (psum_app CO CL). f_equal. cbn [map fst snd]. rewrite (psum_cons CO CL), (psum_nil CO). unfold iterm1. cbn [fst snd].
      rewrite (single_nden x k' _ y us Q SY), expo_spread' by (try apply CV; apply sorted_set_nodup, CV). rewrite SP. destruct (Q _); cbn [ifP]; ring.
    + intros k0 c0 J. apply in_app_or in J as [J|[J|[]]]; [eauto|]. inversion J; subst. auto.
  - left. exists r. split; [exact E|]. split; [exact Wr|]. split; [exact LR|]. split; [exact SR|]. cbn [app] in HP. split; [intros (k & c & I & N); apply (HP k c I); exact N|]. split; [|exact D].
    intros (k & c & I & N). apply N. rewrite spread_self; [apply (HP k c I)|apply sorted_set_nodup, (wf_ss _ _ _ _ W)|]. apply (kl_len _ _ KL), (wf_valid _ _ _ _ W k c I).
  - right. exact HB.
Qed.
Lemma iterm1_coef us s (l : list (list Z * C1)) ws : len ws = len us -> (forall e, In e l -> len (fst e) = len us) -> NoDup (map fst l) -> (forall v c, In (v, c) l -> c <> c_zero CO1) -> expo us ws s <> -1 ->
  psum CO (fun v => vec_eqb v (bump us s 1 ws)) (map (iterm1 us s) l) =
  if c_is_zero CO1 (psum CO1 (fun v => vec_eqb v ws) l) then c_zero CO else quot1 (psum CO1 (fun v => vec_eqb v ws) l) (expo us ws s + 1).
Proof.
  intros L H ND NZ N. assert (Z0 : c_is_zero CO1 (c_zero CO1) = true) by (apply (cl_zero _ CL1); reflexivity).
  assert (X : forall l : list (list Z * C1), (forall e, In e l -> len (fst e) = len us) -> ~ In ws (map fst l) -> psum CO (fun v => vec_eqb v (bump us s 1 ws)) (map (iterm1 us s) l) = c_zero CO).
  { clear l H ND NZ. intros l H NI. apply (psum_false CO CL). intros v c I. apply in_map_iff in I as ([w d] & EQ & I). apply (f_equal fst) in EQ. cbn [iterm1 fst] in EQ. subst v.
    rewrite vec_eqb_bump by (try (apply (H (w, d)); exact I); apply bump_len; auto). rewrite bump_add by auto. replace (1 + - (1)) with 0 by lia. rewrite bump_0 by auto.
    destruct (vec_eqb w ws) eqn:E; [|reflexivity]. apply vec_eqb_iff in E. subst. elim NI. apply (in_map fst) in I. exact I. }
  induction l as [|[v c] l IH]; [cbn; unfold psum; cbn; rewrite Z0; reflexivity|]. cbn [map] in *. inversion_clear ND as [|? ? NI ND']. rewrite (psum_cons CO CL), !(psum_cons CO1 CL1). cbn [iterm1 fst snd] in *.
  assert (LV : len v = len us) by (apply (H (v, c)); left; reflexivity). rewrite vec_eqb_bump by (auto; apply bump_len; auto). rewrite bump_add by auto. replace (1 + - (1)) with 0 by lia. rewrite bump_0 by auto.
  pose proof (cl_ring _ CL1) as RT.
  assert (E1 : forall a, c_add CO1 a (c_zero CO1) = a) by (intros a; rewrite (Radd_comm RT); apply (Radd_0_l RT)). assert (E2 : forall a, c_add CO1 (c_zero CO1) a = a) by (intros a; apply (Radd_0_l RT)).
  unfold vec_eqb at 1 3 5. destruct (list_eq_dec Z.eq_dec v ws) as [->|NE]; cbn [ifP].
  - rewrite X by (auto; intros; apply H; right; auto). rewrite (psum_none CO1 CL1 l ws NI).
    assert (E0 : forall a, a +c c_zero CO = a) by (intros; ring). rewrite !E0, !E1. destruct (c_is_zero CO1 c) eqn:EZ; [|reflexivity]. apply (cl_zero _ CL1) in EZ. elim (NZ ws c); [left; reflexivity|exact EZ].
  - assert (E0 : forall a, c_zero CO +c a = a) by (intros; ring). rewrite !E0, !E2. apply IH; auto; [intros; apply H; right; auto|intros v0 c0 I; apply (NZ v0 c0); right; exact I].
Qed.
Lemma iterm1_zero us s (l : list (list Z * C1)) ws : In s us -> len ws = len us -> (forall e, In e l -> len (fst e) = len us /\ expo us (fst e) s <> -1) -> expo us ws s = 0 ->
  psum CO (fun v => vec_eqb v ws) (map (iterm1 us s) l) = c_zero CO.
Proof.
  intros IS L H Z. induction l as [|[v c] l IH]; [reflexivity|]. cbn [map]. rewrite (psum_cons CO CL), IH by (intros; apply H; right; auto). cbn [iterm1 fst snd]. destruct (H (v, c) (or_introl eq_refl)) as [LV N]. cbn [fst] in *.
  unfold vec_eqb. destruct (list_eq_dec _ _ _) as [E|E]; cbn [ifP]; [|ring]. exfalso. apply N. rewrite <- E, expo_bump in Z by exact LV. rewrite String.eqb_refl in Z. destruct (in_dec string_dec s us); [lia|contradiction].
Qed.
End CP.
