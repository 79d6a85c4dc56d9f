(** Property C102: programs whose calls may be interrupted by exceptions.  Vocabulary: ExnModel4.v ([cmd]: the statements; [history]: the runs), HistSpec.v ([known_after]: what is known of the
    variables after a run, [proper_run]: the statements were allowed, [holds]: a variable has the value that is known). *)
From Coq Require Import ZArith List Bool String Arith Sorted Permutation Lia Ring Ring_theory.
From Verif Require Import Base KpackModel KpackSpec KpackProofs P_Kpack PMonProofs IntModel IntSpec SymModel SymSpec SymProofs P_Sym PMonModel PMonSpec KeyOps KeyInst
  SeriesModel SeriesModel2 SeriesSpec SeriesProofs SeriesProofs2 SeriesProofs3 SeriesProofs4 SeriesProofs5 SeriesProofs6 Lin EvalSpec SeriesEval SeriesProofs7 CfInst P_Series P_Series2
  PolyModel PolyModel2 PolySpec PolyProofs7 PolyProofs8 PolyProofs9 P_Poly P_Poly2 PowProofs PowProofs2 P_Pow CalcSpec DiffProofs IntegProofs P_Calc SubsSpec SubsProofs P_Subs DomProofs P_Dom ExprSpec P_Expr
  ExnModel ExnModel3 ExnModel4 ExnProofs ExnProofs2 ExnProofs3 P_Exn P_Exn4 HistSpec.
Import ListNotations.
Open Scope Z_scope.
Open Scope res_scope.
Local Notation len := List.length.

Section PH.
Context {K C Tag : Type} (KO : key_ops K) (KS : key_sem K) (CO : cf_ops C) (PO : tbl_policy (K * C)) (TO : tag_ops Tag).
Context (KL : key_laws KO KS) (CL : cf_laws CO).
Context (cz : Z -> C) (CZ : int_embedding CO cz) (vpow : C -> Z -> res C) (pw : C -> Z -> C).
Context (tV tD : ity) (HT : integral_type tD) (DI : degrees_in KS tD).
Notation series := (series K C Tag).
Notation WF := (wf KO KS CO).
Notation coef := (coef KS CO).
Notation "0c" := (c_zero CO).
Infix "+c" := (c_add CO) (at level 50, left associativity).
Infix "*c" := (c_mul CO) (at level 40, left associativity).
Add Ring CringPH : (cl_ring _ CL).
Notation vterm := (list Z * C)%type.
Notation vt := (vt KS).
Notation cmd := (@cmd K C Tag).
Notation machine := (@machine K C Tag).
Context (us : symbol_set) (SU : sorted_set us) (BU : 2 * Z.of_nat (len us) <= imax size_t) (ZF : forall n, (n <= len us)%nat -> ks_fits KS (repeat 0 n)).
Notation good := (good KO KS CO us).
Notation holds := (holds KO KS CO us).
Notation after := (after CO cz pw us).
Notation allowed := (allowed KO KS CO vpow pw tV tD us).
Notation exec := (exec KO CO PO TO cz vpow tV tD).
Notation history := (history KO CO PO TO cz vpow tV tD).
Notation call_unop := (call_unop KO CO PO TO cz vpow tV tD).
Notation computes := (computes KO KS CO PO TO cz vpow pw tV tD).
Notation reachable_x := (reachable_x KO KS CO PO TO).

(** * One call *)
Lemma holds_good F (x : series) : holds (Known F) x <-> good x F.
Proof.
  split; intros (W & I & D); (split; [exact W|]; split; [exact I|]).
  - apply (coef_same KS CO CL). exact D.
  - intros ws. apply (same_coef KS CO); exact D.
Qed.
Lemma holds_has k (x : series) : k <> Gone -> holds k x -> exists F, good x F /\ (k = Known F \/ k = Valid).
Proof.
  destruct k as [F| |]; intros N H; [exists F; split; [apply holds_good; exact H|auto]| |congruence].
  exists (vt us x). destruct H as [W I]. split; [|auto]. split; [exact W|]. split; [exact I|]. apply same_refl.
Qed.
Lemma good_valid F (x : series) : good x F -> holds Valid x.
Proof. intros (W & I & _). split; auto. Qed.
Lemma holds_known1 f k (x r : series) : k <> Gone -> holds k x -> (forall F, good x F -> good r (f F)) -> holds (known1 f k) r.
Proof. intros N H G. destruct (holds_has k x N H) as (F & GF & [-> | ->]); cbn [known1]; [apply holds_good; auto|apply (good_valid (f F)); auto]. Qed.
Lemma holds_known2 f k k' (x y r : series) : k <> Gone -> k' <> Gone -> holds k x -> holds k' y -> (forall F G, good x F -> good y G -> good r (f F G)) -> holds (known2 f k k') r.
Proof.
  intros N N' H H' G. destruct (holds_has k x N H) as (F & GF & [-> | ->]); destruct (holds_has k' y N' H') as (F' & GF' & [-> | ->]); cbn [known2]; [apply holds_good; auto| | |]; apply (good_valid (f F F')); auto.
Qed.
Lemma good_same (r : series) F G : good r F -> same CO F G -> good r G.
Proof. intros (W & I & D) S. split; [exact W|]. split; [exact I|]. eapply same_trans; eauto. Qed.
Lemma given F (x : series) : good x F -> proper KO KS CO pw us (Given x). Proof. intros (W & I & _). split; auto. Qed.
Notation run := (run_good KO KS CO PO TO KL CL cz CZ vpow pw tV tD HT DI us SU BU ZF).
Lemma sum_same (sign : bool) (F F' G G' : list vterm) : same CO F F' -> same CO G G' -> same CO (f_sum CO sign F G) (f_sum CO sign F' G').
Proof. intros HF HG Q. rewrite !(sum_psum CO CL), (HF Q), (HG Q). reflexivity. Qed.
Lemma addsub_good (sign : bool) (x y r : series) F G : good x F -> good y G -> (if sign then series_add KO CO PO TO x y else series_sub KO CO PO TO x y) = Ok r -> good r (f_sum CO sign F G).
Proof.
  intros GF GG E. eapply good_same; [apply (run (Sum sign (Given x) (Given y)) r); [apply (run_sum KO KS CO PO TO cz vpow pw tV tD sign (Given x) (Given y) x y r); [constructor|constructor|exact E]|split; eapply given; eauto]|].
  cbn [denotes]. apply sum_same; [apply GF|apply GG].
Qed.
Lemma in_place_good (sign : bool) (al : bool) (x y r : series) F G : good x F -> good y G -> (al = true -> y = x) -> series_in_place_addsub KO CO PO CO PO TO sign (fun c => c) x al y = Ok r -> good r (f_sum CO sign F G).
Proof.
  intros GF GG AL E. eapply good_same; [apply (run (Assign sign (Given x) (Given y)) r); [apply (run_assign KO KS CO PO TO cz vpow pw tV tD sign al (Given x) (Given y) x y r); [constructor|constructor|exact AL|exact E]|split; eapply given; eauto]|].
  cbn [denotes]. apply sum_same; [apply GF|apply GG].
Qed.
Lemma scale_good (x : series) c F : good x F -> good (series_scalar_mul KO CO x c) (f_mul CO F (f_const us c)).
Proof.
  intros GF. eapply good_same; [apply (run (Scale (Given x) c)); [constructor; constructor|eapply given; eauto]|]. cbn [denotes]. rewrite !f_mul_vprod. apply (same_prod CO CL); [apply GF|apply same_refl].
Qed.
Lemma neg_good (x : series) F : good x F -> good (series_negate CO x) (f_neg CO F).
Proof.
  intros GF. eapply good_same; [apply (run (Minus (Given x))); [constructor; constructor|eapply given; eauto]|]. cbn [denotes]. intros Q. rewrite !(neg_psum CO CL). destruct GF as (_ & _ & D). rewrite <- (D Q). reflexivity.
Qed.
Lemma mul_good E (x y r : series) F G : env_ok KO KS E -> good x F -> good y G -> poly_mul KO CO PO TO E x y = Ok r -> good r (f_mul CO F G).
Proof.
  intros EO GF GG EE. eapply good_same; [apply (run (Product (Given x) (Given y)) r); [apply (run_product KO KS CO PO TO cz vpow pw tV tD E (Given x) (Given y) x y r); [constructor|constructor|exact EO|exact EE]|split; eapply given; eauto]|].
  cbn [denotes]. rewrite !f_mul_vprod. apply (same_prod CO CL); [apply GF|apply GG].
Qed.
Lemma const_good c r : series_of_cf KO CO PO TO c [] = Ok r -> good r (f_const us c).
Proof. intros E. apply (run (Number c) r); [constructor; exact E|exact I]. Qed.
Lemma unop_good op (x r : series) F : good x F -> proper_unop CO vpow pw tV tD us op -> call_unop op x = Ok r -> good r (denote_unop CO cz pw us op F).
Proof.
  intros GF P E. pose proof (given F x GF) as PG. pose proof GF as (W & I & D). assert (DG : same CO (vt us x) F) by exact D. destruct op as [s| |ss|lim|lim syms|sm|onleft sign c]; cbn [ExnModel4.call_unop proper_unop denote_unop] in *.
  - eapply good_same; [apply (run (Derivative (Given x) s) r); [econstructor; [constructor|exact E]|exact PG]|]. cbn [denotes]. rewrite !f_diff_dterm. apply (dterm_same CO CL cz). exact DG.
  - eapply good_same; [apply (run (Trimmed (Given x)) r); [econstructor; [constructor|exact E]|exact PG]|]. exact DG.
  - eapply good_same; [apply (run (With (Given x) ss) r); [econstructor; [constructor|exact E]|split; [exact PG|exact P]]|]. exact DG.
  - eapply good_same; [apply (run (Low (Given x) lim) r); [econstructor; [constructor|exact P|exact E]|exact PG]|]. cbn [denotes]. intros Q. unfold f_low. rewrite !(low_psum CO CL Q (fun v => degree_of all_symbols us v <=? lim)). apply DG.
  - destruct P as [P SY]. eapply good_same; [apply (run (LowIn (Given x) lim syms) r); [econstructor; [constructor|exact P|exact E]|split; [exact PG|exact SY]]|]. cbn [denotes]. intros Q. unfold f_low. rewrite !(low_psum CO CL Q (fun v => degree_of (one_of syms) us v <=? lim)). apply DG.
  - destruct P as (SY & P0 & PE). eapply good_same; [apply (run (Substitute (Given x) sm) r); [econstructor; [constructor| |exact E]|split; [exact PG|split; [exact SY|exact P0]]]|].
    + intros z v k c J _ _. eapply PE; eauto.
    + cbn [denotes]. apply (map_same CO CL (fun v => keep sm us v) (fun v => mono (c_one CO) (c_mul CO) pw sm us v us)) in DG. exact DG.
  - eapply good_same; [apply (run (Shift onleft sign (Given x) c) r); [econstructor; [constructor|exact E]|exact PG]|]. cbn [denotes]. destruct onleft; apply sum_same; try apply same_refl; exact DG.
Qed.
Lemma good_ub F (x : series) : good x F -> WF x /\ (len (s_ss x) <= len us)%nat.
Proof. intros G. split; [apply G|]. apply (good_len KO KS CO us x F G). Qed.
Lemma unop_not_ub op (x : series) F : good x F -> proper_unop CO vpow pw tV tD us op -> call_unop op x <> UB.
Proof.
  intros GF P. destruct (good_ub F x GF) as [W L]. destruct op as [s| |ss|lim|lim syms|sm|onleft sign c]; cbn [ExnModel4.call_unop proper_unop] in *.
  - destruct (diff_exact KO KS CO PO TO KL CL cz CZ x s W) as [(r & E & _)|[E _]]; rewrite E; discriminate.
  - destruct (trim_ok KO KS CO PO TO KL CL x W) as (r & E & _); rewrite E; discriminate.
  - destruct P as [SS IS]. assert (LS : (len ss <= len us)%nat) by (apply NoDup_incl_length; [apply sorted_set_nodup; exact SS|exact IS]).
    destruct (add_symbols_exact KO KS CO PO TO KL CL x ss W SS ltac:(lia)) as [(r & E & _)|[[E|E] _]]; rewrite E; discriminate.
  - destruct (truncate_degree_exact CO K KO KS tV tD lim x KL HT P DI W) as [(r & E & _)|[E _]]; rewrite E; discriminate.
  - destruct P as [P SY]. destruct (truncate_p_degree_exact CO K KO KS tV tD lim syms x KL HT P DI W SY) as [(r & E & _)|[E _]]; rewrite E; discriminate.
  - destruct P as (SY & _ & PE). destruct (subs_scalar_ok KO KS CO PO TO KL CL vpow pw x sm W SY) as (r & E & _); [intros z v k c J _ _; eapply PE; eauto|lia|rewrite E; discriminate].
  - destruct (scalar_addsub_exact KO KS CO PO KL CL sign x c W (ZF _ L) _ onleft eq_refl) as [(r & E & _)|[E _]]; destruct onleft; rewrite E; discriminate.
Qed.
Lemma mul_not_ub E (x y : series) F G : env_ok KO KS E -> good x F -> good y G -> poly_mul KO CO PO TO E x y <> UB.
Proof.
  intros EO GF GG. destruct (good_ub F x GF) as [W L]. destruct (good_ub G y GG) as [W' L']. destruct (mul_exact KO KS CO PO TO KL CL E x y EO W W' ltac:(lia)) as (u & _ & [(r & EE & _)|[[EE|EE] _]]); rewrite EE; discriminate.
Qed.

Lemma call_ends (r : res series) h o h' : r <> UB -> x_call r h o h' -> (o = Some tt /\ r = Ok (h' LR)) \/ o = None.
Proof.
  intros NU H. unfold x_call in H. apply call_inv in H as [H|[-> _]]; [|auto]. apply (res_inv r) in H as [(s & E & H)|(-> & _)]; auto. apply call_inv in H as [H|[-> _]]; [|auto]. destruct H as [-> ->]. left. split; [reflexivity|]. rewrite (upd_same h LR s). exact E.
Qed.
Lemma minus_ends rx (h : @store K C Tag) o h' : WF (h LX) -> x_minus KO CO rx h o h' ->
  ((o = Some tt /\ h' LR = series_negate CO (h LX)) \/ o = None) /\ (rx = false -> h' LX = h LX).
Proof.
  intros W H. unfold x_minus in H. destruct rx.
  - split; [|discriminate]. destruct H as [([] & h1 & (s & H1 & ->) & H2)|(-> & _)]; [|auto]. apply (negate_exceptions KO KS CO KL) in H1 as ->; [|exact W]. destruct H2 as [-> ->]. left. split; [reflexivity|].
    rewrite upd_other by discriminate. rewrite !upd_same. reflexivity.
  - apply cp_inv in H as [(s & H & ->)|[-> ->]]; [|split; auto]. rewrite upd_same in H. split; [|intros _; rewrite !upd_other by discriminate; reflexivity].
    destruct o as [[]|]; [|auto]. left. split; [reflexivity|]. rewrite upd_same. apply (negate_exceptions KO KS CO KL) in H; [exact H|exact W].
Qed.

(** * One statement *)
Definition holds_all (k : nat -> @knowledge C) (V : nat -> series) : Prop := forall v, holds (k v) (V v).
Lemma gone (x : series) : holds Gone x. Proof. exact I. Qed.
Notation outcome ok := (if (ok : bool) then Some tt else None).
Lemma give_holds (k : nat -> @knowledge C) (V : nat -> series) d ok kd (r : series) : holds_all k V -> (ok = true -> holds kd r) -> holds_all (fun w => if ok && Nat.eqb w d then kd else k w) (give d (outcome ok) V r).
Proof. intros H R v. destruct ok; cbn [andb give]; [|apply H]. unfold setv. destruct (Nat.eqb v d); [apply R; reflexivity|apply H]. Qed.
Lemma setv_holds (k' : nat -> @knowledge C) V d (s : series) : (forall w, w <> d -> holds (k' w) (V w)) -> holds (k' d) s -> holds_all k' (setv V d s).
Proof. intros H E v. unfold setv. destruct (Nat.eqb v d) eqn:D; [apply Nat.eqb_eq in D; subst v; exact E|apply H; apply Nat.eqb_neq; exact D]. Qed.
Lemma second_or x y : second x y = LX \/ second x y = LY. Proof. unfold second. destruct (Nat.eqb x y); auto. Qed.
Lemma second_load (V : nat -> series) x y : load TO V x y (second x y) = V y.
Proof. unfold second. destruct (Nat.eqb x y) eqn:E; [|reflexivity]. apply Nat.eqb_eq in E. subst y. reflexivity. Qed.
Lemma second_same x y : loc_eqb LX (second x y) = Nat.eqb x y. Proof. unfold second. destruct (Nat.eqb x y); reflexivity. Qed.
Lemma has_wf (k : @knowledge C) (x : series) : usable k -> holds k x -> WF x /\ incl (s_ss x) us /\ (len (s_ss x) <= len us)%nat.
Proof. intros U H. destruct (holds_has k x U H) as (F & G & _). destruct (good_ub F x G). split; [auto|]. split; [apply G|auto]. Qed.

(** The knowledge after the statement is right. *)
Lemma step_holds (c : cmd) ok (k : nat -> @knowledge C) (V : nat -> series) m (V' : nat -> series) m' : reachable_x m -> holds_all k V -> allowed c k -> exec c (V, m) (outcome ok) (V', m') -> reachable_x m' /\ holds_all (after c ok k) V'.
Proof.
  intros R H A X. destruct c as [d x|d x|d c|sign d x y rx ry|sign x y rx ry|sign x c|d x rx c|x c|d x rx|d x op|E d x y|E cpow d x n]; cbn [ExnModel4.exec HistSpec.allowed HistSpec.after] in *.
  - destruct X as (-> & s' & X & ->). split; [exact R|]. apply setv_holds.
    + intros w N. apply Nat.eqb_neq in N. rewrite N. apply H.
    + rewrite Nat.eqb_refl. destruct X as [[E ->]|[E _]]; destruct ok; try discriminate; [apply H|apply gone].
  - destruct X as (-> & E & ->). split; [exact R|]. destruct ok; [|discriminate]. cbn [andb]. destruct A as [U N]. intros v. unfold setv. destruct (Nat.eqb v d); [apply H|]. destruct (Nat.eqb v x); [apply gone|apply H].
  - destruct X as (-> & h' & X & ->). split; [exact R|]. assert (F0 : ks_fits KS []) by (apply (ZF 0%nat); lia). apply call_ends in X; [|apply (of_cf_not_ub KO KS CO PO TO KL CL F0)].
    apply give_holds; [exact H|]. intros ->. destruct X as [[_ E]|E]; [|discriminate]. apply holds_good, const_good, E.
  - destruct X as (-> & h' & X & ->). split; [exact R|]. destruct A as [UX UY]. destruct (has_wf _ _ UX (H x)) as (WX & IX & LEX). destruct (has_wf _ _ UY (H y)) as (WY & IY & LEY).
    pose proof (second_load V x y) as SL. apply (addsub_exceptions KO KS CO PO TO KL CL) in X as [X1 X2]; [|apply second_or|exact WX|exact WY|rewrite SL; cbn [load]; lia]. rewrite SL in X1. cbn [load] in X1, X2. rewrite second_same in X2.
    apply give_holds.
    + intros v. unfold unload. destruct (Nat.eqb x y) eqn:EXY.
      * apply Nat.eqb_eq in EXY. subst y. destruct X2 as [X2 _]. unfold setv. destruct (Nat.eqb v x) eqn:EV; rewrite ?andb_true_r, ?andb_false_r; [|apply H]. apply Nat.eqb_eq in EV. subst v.
        destruct X2 as [->|[X2 _]]; [destruct rx; [apply gone|]; destruct ry; [apply gone|apply H]|]. destruct rx; [apply gone|]. destruct ry; [apply gone|discriminate].
      * destruct X2 as [X2 X3]. unfold setv. destruct (Nat.eqb v y) eqn:EV.
        -- apply Nat.eqb_eq in EV. subst v. rewrite Nat.eqb_sym, EXY, andb_false_r, andb_true_r. destruct X3 as [->|[-> _]]; [destruct ry; [apply gone|apply H]|apply gone].
        -- rewrite andb_false_r. destruct (Nat.eqb v x) eqn:EW; rewrite ?andb_true_r, ?andb_false_r; [|apply H]. apply Nat.eqb_eq in EW. subst v. destruct X2 as [->|[-> _]]; [destruct rx; [apply gone|apply H]|apply gone].
    + intros ->. eapply holds_known2; [exact UX|exact UY|apply H|apply H|]. intros F G GF GG. eapply addsub_good; eauto.
  - destruct X as (-> & h' & X & ->). split; [exact R|]. destruct A as [UX UY]. destruct (has_wf _ _ UX (H x)) as (WX & IX & LEX). destruct (has_wf _ _ UY (H y)) as (WY & IY & LEY).
    pose proof (second_load V x y) as SL. apply (in_place_exceptions KO KS CO PO TO KL CL) in X as (X1 & X2 & X3 & X4); [|apply second_or|exact WX|exact WY|rewrite SL; cbn [load]; lia]. rewrite SL, second_same in X1. cbn [load] in X1, X4.
    assert (HX : holds (if ok then known2 (f_sum CO sign) (k x) (k y) else Valid) (h' LX)).
    { destruct ok; [|split; [exact X2|]; intros z J; apply X1, in_app_or in J as [J|J]; auto]. eapply holds_known2; [exact UX|exact UY|apply H|apply H|]. intros F G GF GG. eapply in_place_good; [exact GF|exact GG| |exact X1]. intros EE. apply Nat.eqb_eq in EE. subst y. reflexivity. }
    intros v. unfold unload. destruct (Nat.eqb x y) eqn:EXY.
    + apply Nat.eqb_eq in EXY. subst y. unfold setv. destruct (Nat.eqb v x) eqn:EV; [exact HX|]. rewrite andb_false_r. apply H.
    + unfold setv. destruct (Nat.eqb v y) eqn:EV.
      * apply Nat.eqb_eq in EV. subst v. rewrite Nat.eqb_sym, EXY, andb_true_r. destruct X4 as [X4|(_ & -> & _ & S0)]; [rewrite X4; destruct ry; [split; [exact WY|exact IY]|apply H]|]. split; [exact X3|]. rewrite S0. intros z [].
      * rewrite andb_false_r. destruct (Nat.eqb v x); [exact HX|apply H].
  - destruct X as (-> & s' & X & ->). split; [exact R|]. destruct (has_wf _ _ A (H x)) as (WX & IX & LEX). apply (in_place_scalar_exceptions KO KS CO PO KL CL) in X as (X1 & X2 & _); [|exact WX|apply ZF; exact LEX].
    apply setv_holds; [intros w N; apply Nat.eqb_neq in N; rewrite N; apply H|]. rewrite Nat.eqb_refl. destruct ok.
    + eapply holds_known1; [exact A|apply H|]. intros F GF. apply (unop_good (UShift false sign c) _ _ F GF I X1).
    + split; [exact X2|]. destruct X1 as (_ & -> & _). exact IX.
  - destruct X as (-> & h' & X & ->). split; [exact R|]. destruct (has_wf _ _ A (H x)) as (WX & IX & LEX). apply (scalar_mul_exceptions KO KS CO TO KL) in X as (X1 & X2 & _); [|exact WX]. cbn [load] in X1, X2. apply give_holds.
    + intros v. unfold unload. rewrite Nat.eqb_refl. unfold setv. destruct (Nat.eqb v x) eqn:EV; rewrite ?andb_true_r, ?andb_false_r; [|apply H]. apply Nat.eqb_eq in EV. subst v. destruct X2 as [->|[-> _]]; [destruct rx; [apply gone|apply H]|apply gone].
    + intros ->. rewrite X1. eapply holds_known1; [exact A|apply H|]. intros F GF. apply scale_good. exact GF.
  - destruct X as (-> & h' & X & ->). split; [exact R|]. destruct (has_wf _ _ A (H x)) as (WX & IX & LEX). apply (in_place_scalar_mul_exceptions KO KS CO TO KL) in X as X1; [|exact WX]. cbn [load] in X1.
    unfold unload. rewrite Nat.eqb_refl. apply setv_holds.
    + intros w N. apply Nat.eqb_neq in N. rewrite N, andb_false_r. apply H.
    + rewrite Nat.eqb_refl, andb_true_r, X1. destruct ok; [|apply H]. eapply holds_known1; [exact A|apply H|]. intros F GF. apply scale_good. exact GF.
  - destruct X as (-> & h' & X & ->). split; [exact R|]. destruct (has_wf _ _ A (H x)) as (WX & IX & LEX). apply minus_ends in X as [X1 X2]; [|exact WX]. cbn [load] in X1, X2. apply give_holds.
    + intros v. unfold unload. rewrite Nat.eqb_refl. unfold setv. destruct (Nat.eqb v x) eqn:EV; rewrite ?andb_true_r, ?andb_false_r; [|apply H]. apply Nat.eqb_eq in EV. subst v. destruct rx; [apply gone|]. rewrite X2 by reflexivity. apply H.
    + intros ->. destruct X1 as [[_ X1]|X1]; [|discriminate]. rewrite X1. eapply holds_known1; [exact A|apply H|]. intros F GF. apply neg_good. exact GF.
  - destruct X as (-> & h' & X & ->). split; [exact R|]. destruct A as [U P]. destruct (holds_has _ _ U (H x)) as (F & GF & _). apply call_ends in X; [|eapply unop_not_ub; eauto]. apply give_holds; [exact H|]. intros ->. destruct X as [[_ X]|X]; [|discriminate].
    eapply holds_known1; [exact U|apply H|]. intros F' GF'. eapply unop_good; eauto.
  - destruct X as (-> & h' & X & ->). split; [exact R|]. destruct A as (U & U' & EO). destruct (holds_has _ _ U (H x)) as (F & GF & _). destruct (holds_has _ _ U' (H y)) as (F' & GF' & _). apply call_ends in X; [|eapply mul_not_ub; eauto].
    apply give_holds; [exact H|]. intros ->. destruct X as [[_ X]|X]; [|discriminate]. eapply holds_known2; [exact U|exact U'|apply H|apply H|]. intros G G' GG GG'. eapply mul_good; eauto.
  - destruct X as (p & X & Y). destruct A as (U & EO & CP). destruct (has_wf _ _ U (H x)) as (WX & IX & LEX). assert (F0 : ks_fits KS []) by (apply (ZF 0%nat); lia).
    apply (pow_exceptions KO KS CO PO TO KL CL F0) in X as [R' X]; [|exact R|exact EO|split; [exact WX|lia]|exact CP]. split; [exact R'|]. destruct p as [r|]; destruct Y as [Y ->]; destruct ok; try discriminate; cbn [andb]; [|intros v; apply H].
    apply setv_holds; [intros w N; apply Nat.eqb_neq in N; rewrite N; apply H|]. rewrite Nat.eqb_refl. specialize (X r eq_refl). eapply holds_known1; [exact U|apply H|]. intros F GF. pose proof X as (W & IR & _).
    split; [exact W|]. split; [intros z J; apply IX, IR, J|]. eapply same_trans; [apply (power_same KO KS CO CL us (V x) r n X (good_covers KO KS CO us SU _ F GF))|]. rewrite <- (pow_powl KS CO). apply (pow_same CO CL). apply GF.
Qed.

(** * Runs *)
Notation known_after := (known_after CO cz pw us).
Notation proper_run := (proper_run KO KS CO cz vpow pw tV tD us).
Lemma known_app (t : list (cmd * bool)) : forall (c : cmd) ok k, known_after (t ++ [(c, ok)]) k = after c ok (known_after t k).
Proof. induction t as [|[c0 ok0] t IH]; intros c ok k; [reflexivity|]. cbn [List.app HistSpec.known_after]. apply IH. Qed.
Lemma proper_app (t : list (cmd * bool)) : forall (c : cmd) ok k, proper_run (t ++ [(c, ok)]) k <-> proper_run t k /\ allowed c (known_after t k).
Proof. induction t as [|[c0 ok0] t IH]; intros c ok k; cbn [List.app HistSpec.known_after HistSpec.proper_run]; [tauto|]. rewrite IH. tauto. Qed.

(** C102. Whatever is interrupted, and wherever: at any point of any run the variables have the values that are known from the statements that ended normally; a variable that an interrupted call
    has assigned to or has modified holds a valid polynomial, except after an interrupted assignment. *)
Theorem history_exact : forall M0 t M k, history M0 t M -> reachable_x (snd M0) -> (forall v, holds (k v) (fst M0 v)) -> proper_run t k ->
  (forall v, holds (known_after t k v) (fst M v)) /\ reachable_x (snd M).
Proof.
  intros M0 t M k H. induction H as [M0|M0 t [V m] c ok [V' m'] H IH X]; intros R HH P; [split; auto|]. apply proper_app in P as [P A]. destruct (IH R HH P) as [IV IR]. rewrite known_app.
  destruct (step_holds c ok (known_after t k) V m V' m' IR IV A X) as [R' H']. split; [exact H'|exact R'].
Qed.

(** An interrupted call changes nothing but what it works on in place and what is passed to it with std::move. *)
Lemma step_frame (c : cmd) ok (k : nat -> @knowledge C) (V : nat -> series) m (V' : nat -> series) m' w : reachable_x m -> holds_all k V -> allowed c k -> exec c (V, m) (outcome ok) (V', m') -> ~ In w (may_change c ok) -> V' w = V w.
Proof.
  intros R H A X N. assert (SV : forall (U : nat -> series) d s, d <> w -> setv U d s w = U w) by (intros U d s D; unfold setv; destruct (Nat.eqb w d) eqn:E; [apply Nat.eqb_eq in E; congruence|reflexivity]).
  assert (GV : forall (U : nat -> series) d s, (ok = true -> d <> w) -> give d (outcome ok) U s w = U w) by (intros U d s D; destruct ok; cbn [give]; [apply SV; auto|reflexivity]).
  destruct c as [d x|d x|d c|sign d x y rx ry|sign x y rx ry|sign x c|d x rx c|x c|d x rx|d x op|E d x y|E cpow d x n]; cbn [ExnModel4.exec HistSpec.allowed may_change] in *.
  - destruct X as (_ & s' & _ & ->). apply SV. intros ->. apply N. left. reflexivity.
  - destruct X as (_ & _ & ->). rewrite !SV; [reflexivity| |]; intros ->; apply N; [left|right; left]; reflexivity.
  - destruct X as (_ & h' & _ & ->). apply GV. intros -> ->. apply N. left. reflexivity.
  - destruct X as (_ & h' & X & ->). destruct A as [UX UY]. destruct (has_wf _ _ UX (H x)) as (WX & IX & LEX). destruct (has_wf _ _ UY (H y)) as (WY & IY & LEY).
    pose proof (second_load V x y) as SL. apply (addsub_exceptions KO KS CO PO TO KL CL) in X as [_ X2]; [|apply second_or|exact WX|exact WY|rewrite SL; cbn [load]; lia]. cbn [load] in X2. rewrite second_same in X2.
    rewrite GV by (intros -> ->; apply N; left; reflexivity). unfold unload. destruct (Nat.eqb x y) eqn:EXY.
    + apply Nat.eqb_eq in EXY. subst y. destruct X2 as [X2 _]. unfold setv. destruct (Nat.eqb w x) eqn:EV; [|reflexivity]. apply Nat.eqb_eq in EV. subst w. destruct X2 as [X2|[X2 _]]; [exact X2|]. exfalso. apply N, in_or_app. right. destruct rx; [left; reflexivity|]. destruct ry; [left; reflexivity|discriminate].
    + destruct X2 as [X2 X3]. unfold setv. destruct (Nat.eqb w y) eqn:EV.
      * apply Nat.eqb_eq in EV. subst w. destruct X3 as [X3|[-> _]]; [exact X3|]. exfalso. apply N, in_or_app. right. apply in_or_app. right. left. reflexivity.
      * destruct (Nat.eqb w x) eqn:EW; [|reflexivity]. apply Nat.eqb_eq in EW. subst w. destruct X2 as [X2|[-> _]]; [exact X2|]. exfalso. apply N, in_or_app. right. left. reflexivity.
  - destruct X as (_ & h' & X & ->). destruct A as [UX UY]. destruct (has_wf _ _ UX (H x)) as (WX & IX & LEX). destruct (has_wf _ _ UY (H y)) as (WY & IY & LEY).
    pose proof (second_load V x y) as SL. apply (in_place_exceptions KO KS CO PO TO KL CL) in X as (_ & _ & _ & X4); [|apply second_or|exact WX|exact WY|rewrite SL; cbn [load]; lia]. cbn [load] in X4. assert (NX : x <> w) by (intros ->; apply N; left; reflexivity).
    unfold unload. destruct (Nat.eqb x y) eqn:EXY; [apply SV; exact NX|]. destruct X4 as [X4|(_ & -> & _)]; [|rewrite !SV; [reflexivity|exact NX|]; intros ->; apply N; right; left; reflexivity].
    rewrite X4. unfold setv. destruct (Nat.eqb w y) eqn:EV; [apply Nat.eqb_eq in EV; subst w; reflexivity|]. apply (SV V x (h' LX)). exact NX.
  - destruct X as (_ & s' & _ & ->). apply SV. intros ->. apply N. left. reflexivity.
  - destruct X as (_ & h' & X & ->). destruct (has_wf _ _ A (H x)) as (WX & _). apply (scalar_mul_exceptions KO KS CO TO KL) in X as (_ & X2 & _); [|exact WX]. cbn [load] in X2.
    rewrite GV by (intros -> ->; apply N; left; reflexivity). unfold unload. rewrite Nat.eqb_refl. unfold setv. destruct (Nat.eqb w x) eqn:EV; [|reflexivity]. apply Nat.eqb_eq in EV. subst w. destruct X2 as [X2|[-> _]]; [exact X2|]. exfalso. apply N, in_or_app. right. left. reflexivity.
  - destruct X as (_ & h' & X & ->). destruct (has_wf _ _ A (H x)) as (WX & _). apply (in_place_scalar_mul_exceptions KO KS CO TO KL) in X as X1; [|exact WX]. cbn [load] in X1. unfold unload. rewrite Nat.eqb_refl. unfold setv. destruct (Nat.eqb w x) eqn:EV; [|reflexivity]. apply Nat.eqb_eq in EV. subst w.
    destruct ok; [exfalso; apply N; left; reflexivity|exact X1].
  - destruct X as (_ & h' & X & ->). destruct (has_wf _ _ A (H x)) as (WX & _). apply minus_ends in X as [_ X2]; [|exact WX]. cbn [load] in X2. rewrite GV by (intros -> ->; apply N; left; reflexivity). unfold unload. rewrite Nat.eqb_refl. unfold setv. destruct (Nat.eqb w x) eqn:EV; [|reflexivity].
    apply Nat.eqb_eq in EV. subst w. destruct rx; [exfalso; apply N, in_or_app; right; left; reflexivity|]. apply X2. reflexivity.
  - destruct X as (_ & h' & _ & ->). apply GV. intros -> ->. apply N. left. reflexivity.
  - destruct X as (_ & h' & _ & ->). apply GV. intros -> ->. apply N. left. reflexivity.
  - destruct X as (p & _ & Y). destruct p as [r|]; destruct Y as [Y ->]; [|reflexivity]. apply SV. intros ->. destruct ok; [apply N; left; reflexivity|discriminate].
Qed.
Theorem history_frame : forall M0 t M k w, history M0 t M -> reachable_x (snd M0) -> (forall v, holds (k v) (fst M0 v)) -> proper_run t k ->
  (forall c ok, In (c, ok) t -> ~ In w (may_change c ok)) -> fst M w = fst M0 w.
Proof.
  intros M0 t M k w H. induction H as [M0|M0 t [V m] c ok [V' m'] H IH X]; intros R HH P N; [reflexivity|]. apply proper_app in P as [P A]. destruct (history_exact M0 t (V, m) k H R HH P) as [IV IR].
  rewrite <- IH; [|exact R|exact HH|exact P|intros c' ok' J; apply N, in_or_app; left; exact J]. cbn [fst]. apply (step_frame c ok (known_after t k) V m V' m' w IR IV A X). apply N, in_or_app. right. left. reflexivity.
Qed.

(** Hence what is in a variable depends only on the statements that ended normally: any two runs, of whatever programs, interrupted or not, which by the specification give polynomials with the same
    total coefficients give objects that compare equal, and only such. *)
Theorem histories_equal : forall M0 t M k v F M0' t' M' k' v' F' b, history M0 t M -> history M0' t' M' -> reachable_x (snd M0) -> reachable_x (snd M0') ->
  (forall v, holds (k v) (fst M0 v)) -> (forall v, holds (k' v) (fst M0' v)) -> proper_run t k -> proper_run t' k' ->
  known_after t k v = Known F -> known_after t' k' v' = Known F' -> tags_equal TO (s_tag (fst M v)) (s_tag (fst M' v')) ->
  series_equal_to KO CO PO TO (fst M v) (fst M' v') = Ok b -> (b = true <-> forall ws, total CO F ws = total CO F' ws).
Proof.
  intros M0 t M k v F M0' t' M' k' v' F' b H H' R R' HH HH' P P' E E' TG EQ. destruct (history_exact M0 t M k H R HH P) as [IV _]. destruct (history_exact M0' t' M' k' H' R' HH' P') as [IV' _].
  specialize (IV v). specialize (IV' v'). rewrite E in IV. rewrite E' in IV'. pose proof IV as (W & I & D). pose proof IV' as (W' & I' & D').
  destruct (programs_equal KO KS CO PO TO KL CL cz CZ vpow pw tV tD HT DI us SU BU ZF (Given (fst M v)) (Given (fst M' v')) (fst M v) (fst M' v')) as [_ Q]; [split; auto|split; auto|constructor|constructor|].
  rewrite (Q b EQ TG). cbn [denotes]. split; intros T ws; specialize (T ws).
  - rewrite <- D, <- D'. rewrite !(same_coef KS CO us _ (vt us _) ws) by apply same_refl. exact T.
  - rewrite <- D, <- D' in T. rewrite !(same_coef KS CO us _ (vt us _) ws) in T by apply same_refl. exact T.
Qed.
End PH.

Print Assumptions history_exact.
Print Assumptions history_frame.
Print Assumptions histories_equal.

(** * Copy assignment.  If copying a term throws while an assignment copies the tables, the series that is assigned to may hold terms of the other series together with its own symbol set: it is not valid
    (its destructor would find that in debug mode, series.hpp:873-911).  Here the series assigned to is empty and without symbols, with two tables; the other is 5 a^2 + 7 a, in two tables; the copy of the second table throws. *)
From Verif Require Import PSModel P_PS4.
Definition ex_to := psb no_truncation []%string 1 [].
Definition ex_from := psb no_truncation ["a"]%string 1 [([2], 5); ([1], 7)].
Theorem copy_assign_refuted : exists s from s' : series Z Z trunc_t, wf exK exS Z_cf s /\ wf exK exS Z_cf from /\ x_copy_assign from s None s' /\
  ~ wf exK exS Z_cf s' /\ exists k c, In (k, c) (terms s') /\ k_compatible exK k (s_ss s') = Ok false.
Proof.
  pose proof (psb_wf no_truncation []%string 1 [] ltac:(constructor) ltac:(lia) ltac:(vm_compute; reflexivity)) as (W & _).
  pose proof (psb_wf no_truncation ["a"]%string 1 [([2], 5); ([1], 7)] ltac:(repeat constructor) ltac:(lia) ltac:(vm_compute; reflexivity)) as (W' & _).
  set (s' := set_tables ex_to (firstn 1 (s_tables ex_from) ++ [] :: skipn 2 (s_tables ex_to))). exists ex_to, ex_from, s'. split; [exact W|]. split; [exact W'|]. split.
  - right. split; [reflexivity|]. right. left. exists 1%nat, (nth 1 (s_tables ex_from) []), []. split; [vm_compute; reflexivity|]. split; [vm_compute; lia|]. split; [left; intros e []|reflexivity].
  - assert (T : terms s' = [(exk [2], 5)]) by (vm_compute; reflexivity). assert (NC : k_compatible exK (exk [2]) (s_ss s') = Ok false) by (vm_compute; reflexivity). split.
    + intros X. pose proof (wf_valid _ _ _ _ X (exk [2]) 5) as V. rewrite T in V. specialize (V (or_introl eq_refl)). destruct (kl_compat _ _ exK_laws (exk [2]) (s_ss s')) as (b & E & Q). rewrite E in NC. rewrite (Q V) in NC. discriminate NC.
    + exists (exk [2]), 5. rewrite T. split; [left; reflexivity|exact NC].
Qed.
Print Assumptions copy_assign_refuted.

(** * Non-vacuity: with x = 3 a b^2 - 2 a + 7 b in variable 0 and y in variable 1: [v2 = x] is interrupted in the middle, then [v2 = x + std::move(y)] is done, [v2 -= x] is interrupted, [v2 = x + x] is done,
    [v3 = v2 * x] is interrupted and then done: v3 holds 2 x^2. *)
Notation exT := (kd_ty kd_int64).
Notation Zs := (series Z Z Z).
Notation exx := (exec exK Z_cf exP Z_tag (fun z => z) ex_vpow int32 exT).
Notation dflt := (series_default Z_tag : Zs).
Definition ex_V : nat -> Zs := fun v => match v with 0%nat => ex_x | 1%nat => ex_y | _ => dflt end.
Definition ex_sum := get dflt (series_add exK Z_cf exP Z_tag ex_x ex_y).
Definition ex_dbl := get dflt (series_add exK Z_cf exP Z_tag ex_x ex_x).
Definition ex_prod := get dflt (poly_mul exK Z_cf exP Z_tag (exE true 1) ex_dbl ex_x).
Definition ex_k : nat -> @knowledge Z := fun v => match v with 0%nat => Known (as_formal exS ["a"; "b"; "c"]%string ex_x) | 1%nat => Known (as_formal exS ["a"; "b"; "c"]%string ex_y) | _ => Valid end.
Definition ex_t : list (@cmd Z Z Z * bool) :=
  [(Copy 2 0, false); (AddSub true 2 0 1 false true, true); (InPlace false 2 0 false false, false); (AddSub true 2 0 0 false false, true); (Mul (exE true 1) 3 2 0, false); (Mul (exE true 1) 3 2 0, true)]%nat.
Lemma add_stmt (V : nat -> Zs) m d x y ry X Y r : V x = X -> V y = Y -> wf exK exS Z_cf X -> wf exK exS Z_cf Y -> Z.of_nat (len (s_ss X) + len (s_ss Y)) <= imax size_t -> series_add exK Z_cf exP Z_tag X Y = Ok r ->
  x <> y \/ ry = false -> exists V', exx (AddSub true d x y false ry) (V, m) (Some tt) (V', m) /\ V' d = r /\ forall w, w <> d -> (ry = true -> w <> y) -> V' w = V w.
Proof.
  intros <- <- WX WY B E N. pose proof (second_load Z_tag V x y) as SL.
  destruct (addsub_runs exK exS Z_cf exP Z_tag exK_laws Z_cf_laws true (second x y) false ry (load Z_tag V x y) r) as (h' & H & ER); [apply second_or|exact WX|exact WY|rewrite SL; exact B|rewrite SL; exact E|].
  exists (give d (Some tt) (unload V x y h') (h' LR)). split; [split; [reflexivity|]; exists h'; split; [exact H|reflexivity]|]. split; [cbn [give]; unfold setv; rewrite Nat.eqb_refl; exact ER|].
  apply (addsub_exceptions exK exS Z_cf exP Z_tag exK_laws Z_cf_laws) in H as [_ H]; [|apply second_or|exact WX|exact WY|rewrite SL; exact B]. rewrite second_same in H. cbn [load] in H.
  intros w ND NY. cbn [give]. unfold setv at 1. apply Nat.eqb_neq in ND. rewrite ND. unfold unload. destruct (Nat.eqb x y) eqn:EXY.
  - apply Nat.eqb_eq in EXY. subst y. destruct N as [N| ->]; [congruence|]. destruct H as [[H|[H _]] _]; [|discriminate]. unfold setv. destruct (Nat.eqb w x) eqn:EW; [apply Nat.eqb_eq in EW; subst w; exact H|reflexivity].
  - destruct H as [H1 H2]. unfold setv. destruct (Nat.eqb w y) eqn:EW; [apply Nat.eqb_eq in EW; subst w; destruct H2 as [H2|[R _]]; [exact H2|]; specialize (NY R); congruence|].
    destruct (Nat.eqb w x) eqn:EV; [apply Nat.eqb_eq in EV; subst w; destruct H1 as [H1|[R _]]; [exact H1|discriminate]|reflexivity].
Qed.
Lemma mul_stmt (V : nat -> Zs) m E d x y X Y r : V x = X -> V y = Y -> poly_mul exK Z_cf exP Z_tag E X Y = Ok r ->
  exx (Mul E d x y) (V, m) (Some tt) (setv V d r, m) /\ exx (Mul E d x y) (V, m) None (V, m).
Proof.
  intros <- <- EE. split; (split; [reflexivity|]).
  - exists (upd (load Z_tag V x y) LR r). split; [|cbn [give]; rewrite upd_same; reflexivity]. unfold x_call. apply call_some. apply (res_some _ _ _ _ _ r EE). apply call_some. split; reflexivity.
  - exists (load Z_tag V x y). split; [|reflexivity]. right. split; [reflexivity|]. split; [reflexivity|]. right. reflexivity.
Qed.
Example ex_history : let us := ["a"; "b"; "c"]%string in
  (forall v, holds exK exS Z_cf us (ex_k v) (ex_V v)) /\ proper_run exK exS Z_cf (fun z => z) ex_vpow Z.pow int32 exT us ex_t ex_k /\
  exists V, history exK Z_cf exP Z_tag (fun z => z) ex_vpow int32 exT (ex_V, []) ex_t (V, []) /\ V 0%nat = ex_x /\ coef exS Z_cf us (V 3%nat) [2; 2; 0] = -24 /\ coef exS Z_cf us (V 3%nat) [0; 2; 0] = 98 /\
  known_after Z_cf (fun z => z) Z.pow us ex_t ex_k 1%nat = Gone.
Proof.
  intros us. destruct ex_x_wf as (WX & SX & _). destruct ex_y_wf as (WY & SY & _).
  assert (IX : incl (s_ss ex_x) us) by (rewrite SX; intros z [<-|[<-|[]]]; cbn; tauto). assert (IY : incl (s_ss ex_y) us) by (rewrite SY; intros z [<-|[<-|[]]]; cbn; tauto).
  assert (BB : forall p q : Zs, incl (s_ss p) us -> incl (s_ss q) us -> wf exK exS Z_cf p -> wf exK exS Z_cf q -> Z.of_nat (len (s_ss p) + len (s_ss q)) <= imax size_t).
  { intros p q Ip Iq Wp Wq. pose proof (NoDup_incl_length (sorted_set_nodup _ (wf_ss _ _ _ _ Wp)) Ip). pose proof (NoDup_incl_length (sorted_set_nodup _ (wf_ss _ _ _ _ Wq)) Iq). cbn [us List.length] in *. assert (6 <= imax size_t) by (vm_compute; discriminate). lia. }
  split. { intros v. destruct v as [|[|v]]; cbn [ex_k ex_V holds]; [split; [exact WX|]; split; [exact IX|]|split; [exact WY|]; split; [exact IY|]|split; [apply default_wf|intros z []]];
    intros ws; rewrite (same_coef exS Z_cf us _ _ _ (same_refl Z_cf (vt exS us _))); reflexivity. }
  split. { cbn [ex_t proper_run allowed HistSpec.after ex_k Nat.eqb andb known2]. split; [discriminate|]. split; [split; discriminate|]. split; [split; discriminate|]. split; [split; discriminate|]. split; [split; [discriminate|]; split; [discriminate|apply exE_ok]|]. split; [split; [discriminate|]; split; [discriminate|apply exE_ok]|exact I]. }
  set (s1 := set_tables dflt (firstn 1 (s_tables ex_x))). set (V1 := setv ex_V 2 s1).
  assert (A0 : V1 0%nat = ex_x) by (unfold V1, setv; cbn [Nat.eqb]; unfold ex_V; reflexivity). assert (A1 : V1 1%nat = ex_y) by (unfold V1, setv; cbn [Nat.eqb]; unfold ex_V; reflexivity).
  assert (ES : series_add exK Z_cf exP Z_tag ex_x ex_y = Ok ex_sum) by (vm_compute; reflexivity). assert (ED : series_add exK Z_cf exP Z_tag ex_x ex_x = Ok ex_dbl) by (vm_compute; reflexivity).
  assert (EP : poly_mul exK Z_cf exP Z_tag (exE true 1) ex_dbl ex_x = Ok ex_prod) by (vm_compute; reflexivity). assert (NE : ss_eqb (s_ss ex_sum) (s_ss ex_x) = false) by (vm_compute; reflexivity).
  assert (T01 : (0 <> 1)%nat) by discriminate.
  pose proof (add_stmt V1 [] 2 0 1 true ex_x ex_y ex_sum A0 A1 WX WY (BB _ _ IX IY WX WY) ES (or_introl T01)) as H2. destruct H2 as (V2 & H2 & E2 & F2).
  assert (F20 : V2 0%nat = ex_x) by (rewrite F2; [exact A0|discriminate|discriminate]).
  set (V3 := unload V2 2 0 (load Z_tag V2 2 0)).
  assert (H3 : exx (InPlace false 2 0 false false) (V2, []) None (V3, [])).
  { split; [reflexivity|]. exists (load Z_tag V2 2 0). split; [|reflexivity]. unfold x_in_place_addsub. change (second 2 0) with LY. apply (bind_assoc_some _ _ _ (load Z_tag V2 2 0 LX) (load Z_tag V2 2 0)); [split; reflexivity|].
    apply (bind_assoc_some _ _ _ (load Z_tag V2 2 0 LY) (load Z_tag V2 2 0)); [split; reflexivity|]. cbn [load]. rewrite E2, F20. rewrite NE.
    right. split; [reflexivity|]. split; [reflexivity|]. right. reflexivity. }
  assert (F30 : V3 0%nat = ex_x) by (unfold V3, unload, setv; cbn [Nat.eqb load]; exact F20).
  pose proof (add_stmt V3 [] 2 0 0 false ex_x ex_x ex_dbl F30 F30 WX WX (BB _ _ IX IX WX WX) ED (or_intror eq_refl)) as H4. destruct H4 as (V4 & H4 & E4 & F4).
  assert (F40 : V4 0%nat = ex_x) by (rewrite F4; [exact F30|discriminate|discriminate]).
  pose proof (mul_stmt V4 [] (exE true 1) 3 2 0 ex_dbl ex_x ex_prod E4 F40 EP) as H5. destruct H5 as [H6 H5].
  exists (setv V4 3 ex_prod). split.
  - change ex_t with ((((((([] ++ [(Copy 2 0, false)]) ++ [(AddSub true 2 0 1 false true, true)]) ++ [(InPlace false 2 0 false false, false)]) ++ [(AddSub true 2 0 0 false false, true)]) ++ [(Mul (exE true 1) 3 2 0, false)]) ++ [(Mul (exE true 1) 3 2 0, true)]))%nat.
    eapply h_step; [|exact H6]. eapply h_step; [|exact H5]. eapply h_step; [|exact H4]. eapply h_step; [|exact H3]. eapply h_step; [|exact H2]. eapply h_step; [constructor|]. split; [reflexivity|]. exists s1. split; [|reflexivity].
    right. split; [reflexivity|]. right. right. left. split; [vm_compute; lia|reflexivity].
  - split; [exact F40|]. split; [vm_compute; reflexivity|]. split; vm_compute; reflexivity.
Qed.
