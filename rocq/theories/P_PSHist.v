(** Property C106: programs with power series whose calls may be interrupted by exceptions.  Vocabulary: PSHistModel.v ([ps_cmd]: the statements; [ps_history]: the runs), PSHistSpec.v ([ps_known_after]:
    what is known of the variables after a run, [ps_proper_run]: the statements were allowed, [has_value_of]: a variable has the value that is known, [starts]: the operands), ExprSpec.v ([denotes], [total]). *)
From Coq Require Import ZArith List Bool String Arith Sorted Permutation Lia.
From Verif Require Import Base KpackModel KpackSpec KpackProofs P_Kpack PMonProofs IntModel IntSpec SymModel SymSpec SymProofs P_Sym PMonModel PMonSpec KeyOps KeyInst
  SeriesModel SeriesModel2 SeriesSpec SeriesProofs SeriesProofs2 SeriesProofs3 SeriesProofs4 SeriesProofs5 SeriesProofs6 Lin EvalSpec SeriesEval SeriesProofs7 CfInst P_Series P_Series2
  PolyModel PolyModel2 PolySpec PolyProofs7 PolyProofs8 PolyProofs9 P_Poly P_Poly2 PowProofs PowProofs2 CalcSpec DiffProofs P_Calc PSModel PSSpec PSProofs P_PS P_PS2 P_PS3 P_PS4 PSPow SubsSpec SubsProofs P_Subs PSSubs P_PS9 ExprSpec P_PSExpr
  ExnModel ExnModel2 ExnModel3 ExnModel4 PSHistModel ExnProofs ExnProofs2 ExnProofs3 P_Exn P_Exn2 P_Exn4 PSHistSpec.
From Verif Require P_Hist.
Import ListNotations.
Open Scope Z_scope.
Open Scope res_scope.
Local Notation len := List.length.

Section PSH.
Context {K C : Type} (KO : key_ops K) (KS : key_sem K) (CO : cf_ops C) (PO : tbl_policy (K * C)) (tD : ity).
Context (KL : key_laws KO KS) (CL : cf_laws CO) (HT : integral_type tD) (DI : degrees_in KS tD) (HP : promote tD = tD).
Context (cz : Z -> C) (pw : C -> Z -> C).
Notation series := (series K C trunc_t).
Notation WF := (wf KO KS CO).
Notation TO := ps_tag_ops.
Notation ps_cmd := (@ps_cmd K C).
Notation kn := (@ps_knowledge K C).
Context (t : trunc_t) (us : symbol_set) (SU : sorted_set us) (BU : 2 * Z.of_nat (len us) <= imax size_t) (ZF : forall n, (n <= len us)%nat -> ks_fits KS (repeat 0 n)).
Context (TK : trunc_ok tD t) (SF : degrees_fit KS tD t).
Notation computes := (ps_computes KO KS CO PO tD t).
Notation proper := (ps_proper KO KS CO t us).
Notation pgood := (pgood KO KS CO t us).
Notation denotes := (denotes KS CO cz pw us).
Notation run := (ps_run_good KO KS CO PO tD KL CL HT DI HP cz pw t us SU BU ZF TK SF).
Notation exec := (ps_exec KO CO PO tD).
Notation history := (ps_history KO CO PO tD).
Notation allowed := (ps_allowed KO KS CO PO tD t us).
Notation after := (@ps_after K C).

(** The invariant: the variable was computed by the expression. *)
Definition inv (k : kn) (x : series) : Prop :=
  match k with
  | Value e b => computes e x /\ proper e /\ (b = true -> s_tag x = t)
  | SomeSeries => WF x /\ incl (s_ss x) us
  | Nothing => True
  end.
Lemma inv_value (k : kn) (x : series) : inv k x -> has_value_of KO KS CO cz pw t us k x.
Proof.
  destruct k as [e b| |]; cbn [inv has_value_of]; auto. intros (H & P & B).
  destruct (ps_program_exact KO KS CO PO tD KL CL HT DI HP cz pw t us SU BU ZF TK SF e x P H) as (W & I & T & _ & R & D). auto 8.
Qed.
Lemma starts_inv (k : kn) (x : series) : starts KO KS CO t us k x -> inv k x.
Proof. destruct k as [e b| |]; cbn [inv starts]; auto. intros (-> & B & W & I & T & R & N). split; [constructor|]. split; [|exact B]. cbn [ps_proper]. auto. Qed.
Lemma inv_good (k : kn) (x : series) : known k -> inv k x -> exists e b, k = Value e b /\ computes e x /\ proper e /\ (b = true -> s_tag x = t) /\ pgood x (denotes e).
Proof. destruct k as [e b| |]; cbn [known inv]; try tauto. intros _ (H & P & B). exists e, b. split; [reflexivity|]. split; [exact H|]. split; [exact P|]. split; [exact B|]. apply (run e x H P). Qed.
Lemma good_has (x : series) F : pgood x F -> WF x /\ incl (s_ss x) us /\ (len (s_ss x) <= len us)%nat /\ trunc_ok tD (s_tag x).
Proof. intros G. pose proof (pgood_len KO KS CO t us x F G) as L. pose proof G as (W & I & T & _). split; [exact W|]. split; [exact I|]. split; [exact L|]. apply (two_ok tD t TK). exact T. Qed.
Lemma inv_has (k : kn) (x : series) : known k -> inv k x -> WF x /\ incl (s_ss x) us /\ (len (s_ss x) <= len us)%nat /\ trunc_ok tD (s_tag x).
Proof. intros U H. destruct (inv_good k x U H) as (e & b & _ & _ & _ & _ & G). eapply good_has; eauto. Qed.
(** A truncated operand is a program by itself. *)
Lemma tag_given (x : series) F : pgood x F -> s_tag x = t -> proper (Given x).
Proof. intros G T. pose proof (pgood_respects KO KS CO KL CL t us SU x F G) as R. pose proof (pgood_nonneg KO KS CO KL CL t us SU x F G) as N. rewrite T in N. destruct G as (W & I & TT & _). cbn [ps_proper]. auto. Qed.

(** * Statements that end normally *)
Lemma inv_from1 (k : kn) (x r : series) (f : @expr K C trunc_t -> expr) : known k -> inv k x -> (forall e, proper e -> proper (f e)) -> (forall y, limited t (Given y) -> limited t (f (Given y))) -> (forall e, computes e x -> computes (f e) r) -> inv (from1 f k) r.
Proof.
  intros U H P L X. destruct (inv_good k x U H) as (e & b & -> & Ce & Pe & B & G). cbn [from1 inv]. split; [apply X; exact Ce|]. split; [apply P; exact Pe|]. intros E. pose proof (B E) as T.
  apply (run (f (Given x)) r); [apply X; constructor|apply P; apply (tag_given x (denotes e) G T)|]. apply L. exact T.
Qed.
Lemma inv_sum sign ip al (k k' : kn) (x y r : series) : known k -> known k' -> inv k x -> inv k' y -> (al = true -> y = x) ->
  (if ip : bool then ps_in_place_addsub KO CO PO tD sign x al y else if sign then ps_add KO CO PO tD x y else ps_sub KO CO PO tD x y) = Ok r -> inv (from2 (if ip then Assign sign else Sum sign) k k') r.
Proof.
  intros U U' H H' AL E. destruct (inv_good k x U H) as (e & b & -> & Ce & Pe & B & G). destruct (inv_good k' y U' H') as (e' & b' & -> & Ce' & Pe' & B' & G'). cbn [from2 inv]. split; [|split].
  - destruct ip; [eapply psr_assign|eapply psr_sum]; eauto.
  - destruct ip; cbn [ps_proper]; auto.
  - intros T. apply orb_true_iff in T. apply (pgood_sum KO KS CO PO tD KL CL HT DI t us SU BU TK SF sign ip al x y r _ _ G G' AL E). destruct T as [T|T]; auto.
Qed.
Lemma inv_product E (k k' : kn) (x y r : series) : known k -> known k' -> inv k x -> inv k' y -> env_ok KO KS E -> ps_mul KO CO PO E tD x y = Ok r -> inv (from2 Product k k') r.
Proof.
  intros U U' H H' EO X. destruct (inv_good k x U H) as (e & b & -> & Ce & Pe & B & G). destruct (inv_good k' y U' H') as (e' & b' & -> & Ce' & Pe' & B' & G'). cbn [from2 inv]. split; [|split].
  - eapply psr_product; eauto.
  - cbn [ps_proper]; auto.
  - intros T. apply orb_true_iff in T. apply (pgood_prod KO KS CO PO tD KL CL HT HP t us SU BU TK SF E x y r _ _ EO G G' X). destruct T as [T|T]; auto.
Qed.
Lemma const_tag c (r : series) : series_of_cf KO CO PO TO c [] = Ok r -> inv (Value (Number c) false) r.
Proof. intros E. cbn [inv]. split; [constructor; exact E|]. split; [exact I|discriminate]. Qed.
Lemma inv_limit (k : kn) (x r : series) : known k -> inv k x -> (forall e, computes e x -> computes e r) -> s_tag r = t -> inv (truncated k) r.
Proof. intros U H X T. destruct (inv_good k x U H) as (e & b & -> & Ce & Pe & _). cbn [truncated inv]. auto. Qed.

(** * No undefined behaviour *)
Lemma unop_not_ub (op : @ps_unop C) (x : series) F : pgood x F -> match op with PWith ss => sorted_set ss /\ incl ss us | _ => True end -> call_ps_unop KO CO PO tD op x <> UB.
Proof.
  intros G P. destruct (good_has x F G) as (W & I & L & T). destruct op as [onleft sign c| |ss]; cbn [call_ps_unop].
  - destruct (ps_scalar_exact KO KS CO PO tD KL CL HT DI sign onleft x c W T (ZF _ L)) as [(r & E & _)|[E _]]; destruct onleft; rewrite E; discriminate.
  - destruct (trim_ok KO KS CO PO TO KL CL x W) as (r & E & _); rewrite E; discriminate.
  - destruct P as [SS IS]. assert (LS : (len ss <= len us)%nat) by (apply NoDup_incl_length; [apply sorted_set_nodup; exact SS|exact IS]).
    destruct (add_symbols_exact KO KS CO PO TO KL CL x ss W SS ltac:(lia)) as [(r & E & _)|[[E|E] _]]; rewrite E; discriminate.
Qed.
Lemma mul_not_ub E (x y : series) F G : env_ok KO KS E -> pgood x F -> pgood y G -> ps_mul KO CO PO E tD x y <> UB.
Proof.
  intros EO Gx Gy. destruct (good_has x F Gx) as (Wx & Ix & Lx & Tx). destruct (good_has y G Gy) as (Wy & Iy & Ly & Ty). pose proof Gx as (_ & _ & TX & _). pose proof Gy as (_ & _ & TY & _).
  assert (BB : Z.of_nat (len (s_ss x) + len (s_ss y)) <= imax size_t) by lia. destruct (tg_joint KS tD t TK SF x y TX TY) as [J TJ].
  destruct (ps_mul_exact KO KS CO PO tD KL CL HT HP E x y EO Wx Wy Tx Ty BB) as [_ X]. cbv zeta in X. destruct (X _ J) as (u & _ & [(r & EE & _)|[[EE|EE] _]]); try (rewrite EE; discriminate).
  intros u _ NT. destruct TJ as [TJ|TJ]; [congruence|]. rewrite TJ in *. apply SF. exact NT.
Qed.
Lemma pow_not_ub m E cpow n (x : series) F : ps_reachable KO KS CO PO tD m -> env_ok KO KS E -> pgood x F -> (forall c, cpow c = Ok (cpower CO c n)) -> fst (ps_pow KO CO PO E tD cpow (Some (Z.of_nat n)) (Nat.eqb n 0) (Some n) m x) <> UB.
Proof.
  intros R EO G CP. destruct (good_has x F G) as (W & I & L & T). pose proof G as (_ & _ & TX & _). assert (F0 : ks_fits KS []) by (apply (ZF 0%nat); lia).
  assert (AR : ps_arg KO KS CO tD x) by (split; [exact W|]; split; [lia|]; split; [exact T|apply (two_fit KS tD t SF); exact TX]).
  destruct (ps_pow_exact_partial KO KS CO PO tD KL CL HT DI HP F0 m E cpow n x R EO AR CP) as [(r' & E' & _)|[[X|X] _]]; congruence.
Qed.

(** * One statement *)
Definition inv_all (k : nat -> kn) (V : nat -> series) : Prop := forall v, inv (k v) (V v).
Notation outcome ok := (if (ok : bool) then Some tt else None).
Lemma nothing (x : series) : inv Nothing x. Proof. exact I. Qed.
Lemma give_inv (k : nat -> kn) (V : nat -> series) d ok kd (r : series) : inv_all k V -> (ok = true -> inv kd r) -> inv_all (fun w => if ok && Nat.eqb w d then kd else k w) (give d (outcome ok) V r).
Proof. intros H R v. destruct ok; cbn [andb give]; [|apply H]. unfold setv. destruct (Nat.eqb v d); [apply R; reflexivity|apply H]. Qed.
Lemma setv_inv (k' : nat -> kn) V d (s : series) : (forall w, w <> d -> inv (k' w) (V w)) -> inv (k' d) s -> inv_all k' (setv V d s).
Proof. intros H E v. unfold setv. destruct (Nat.eqb v d) eqn:D; [apply Nat.eqb_eq in D; subst v; exact E|apply H; apply Nat.eqb_neq; exact D]. Qed.

(** The knowledge after the statement is right. *)
Lemma step_inv (c : ps_cmd) ok (k : nat -> kn) (V V' : nat -> series) : inv_all k V -> allowed c k -> exec c V (outcome ok) V' -> inv_all (after c ok k) V'.
Proof.
  intros H A X. destruct c as [d x|d x|d c|sign d x y rx ry|sign x y rx ry|sign x c|d x rx c|x c|d x rx|tV x n|tV x n s|d x op|E d x y|m E cpow d x n]; cbn [ps_exec ps_allowed ps_after] in *.
  - destruct X as (s' & X & ->). apply setv_inv.
    + intros w N. apply Nat.eqb_neq in N. rewrite N. apply H.
    + rewrite Nat.eqb_refl. destruct X as [[E ->]|[E _]]; destruct ok; try discriminate; [apply H|apply nothing].
  - destruct X as (E & ->). destruct ok; [|discriminate]. cbn [andb]. destruct A as [U N]. intros v. unfold setv. destruct (Nat.eqb v d); [apply H|]. destruct (Nat.eqb v x); [apply nothing|apply H].
  - destruct X as (h' & X & ->). assert (F0 : ks_fits KS []) by (apply (ZF 0%nat); lia). apply P_Hist.call_ends in X; [|apply (of_cf_not_ub KO KS CO PO TO KL CL F0)].
    apply give_inv; [exact H|]. intros ->. destruct X as [[_ E]|E]; [|discriminate]. apply const_tag, E.
  - destruct X as (h' & X & ->). destruct A as [UX UY]. destruct (inv_has _ _ UX (H x)) as (WX & IX & LEX & TX). destruct (inv_has _ _ UY (H y)) as (WY & IY & LEY & TY).
    pose proof (P_Hist.second_load TO V x y) as SL. apply (ps_addsub_exceptions KO KS CO PO tD KL CL HT DI) in X as [X1 X2]; [|apply P_Hist.second_or|exact WX|exact WY|exact TX|rewrite SL; exact TY|rewrite SL; cbn [load]; lia].
    rewrite SL in X1. cbn [load] in X1, X2. rewrite P_Hist.second_same in X2.
    apply give_inv.
    + intros v. unfold unload. destruct (Nat.eqb x y) eqn:EXY.
      * apply Nat.eqb_eq in EXY. subst y. destruct X2 as [X2 _]. unfold setv. destruct (Nat.eqb v x) eqn:EV; rewrite ?andb_true_r, ?andb_false_r; [|apply H]. apply Nat.eqb_eq in EV. subst v.
        destruct X2 as [->|[X2 _]]; [destruct rx; [apply nothing|]; destruct ry; [apply nothing|apply H]|]. destruct rx; [apply nothing|]. destruct ry; [apply nothing|discriminate].
      * destruct X2 as [X2 X3]. unfold setv. destruct (Nat.eqb v y) eqn:EV.
        -- apply Nat.eqb_eq in EV. subst v. rewrite Nat.eqb_sym, EXY, andb_false_r, andb_true_r. destruct X3 as [->|[-> _]]; [destruct ry; [apply nothing|apply H]|apply nothing].
        -- rewrite andb_false_r. destruct (Nat.eqb v x) eqn:EW; rewrite ?andb_true_r, ?andb_false_r; [|apply H]. apply Nat.eqb_eq in EW. subst v. destruct X2 as [->|[-> _]]; [destruct rx; [apply nothing|apply H]|apply nothing].
    + intros ->. apply (inv_sum sign false false (k x) (k y) (V x) (V y)); auto. discriminate.
  - destruct X as (h' & X & ->). destruct A as [UX UY]. destruct (inv_has _ _ UX (H x)) as (WX & IX & LEX & TX). destruct (inv_has _ _ UY (H y)) as (WY & IY & LEY & TY).
    pose proof (P_Hist.second_load TO V x y) as SL. apply (ps_in_place_exceptions KO KS CO PO tD KL CL HT DI) in X as (X1 & X2 & X3 & _ & _ & X4); [|apply P_Hist.second_or|exact WX|exact WY|exact TX|rewrite SL; exact TY|rewrite SL; cbn [load]; lia].
    rewrite SL, P_Hist.second_same in X1. cbn [load] in X1, X4.
    assert (HX : inv (if ok then from2 (Assign sign) (k x) (k y) else SomeSeries) (h' LX)).
    { destruct ok; [|split; [exact X2|]; intros z J; apply X1, in_app_or in J as [J|J]; auto]. apply (inv_sum sign true (Nat.eqb x y) (k x) (k y) (V x) (V y)); auto. intros EE. apply Nat.eqb_eq in EE. subst y. reflexivity. }
    intros v. unfold unload. destruct (Nat.eqb x y) eqn:EXY.
    + apply Nat.eqb_eq in EXY. subst y. unfold setv. destruct (Nat.eqb v x) eqn:EV; [exact HX|]. rewrite andb_false_r. apply H.
    + unfold setv. destruct (Nat.eqb v y) eqn:EV.
      * apply Nat.eqb_eq in EV. subst v. rewrite Nat.eqb_sym, EXY, andb_true_r. destruct X4 as [X4|(_ & -> & _ & S0)]; [rewrite X4; destruct ry; [split; [exact WY|exact IY]|apply H]|]. split; [exact X3|]. rewrite S0. intros z [].
      * rewrite andb_false_r. destruct (Nat.eqb v x); [exact HX|apply H].
  - destruct X as (s' & X & ->). destruct (inv_has _ _ A (H x)) as (WX & IX & LEX & TX). apply (ps_in_place_scalar_exceptions KO KS CO PO tD KL CL HT DI) in X as (X1 & X2 & _); [|exact WX|exact TX|apply ZF; exact LEX].
    apply setv_inv; [intros w N; apply Nat.eqb_neq in N; rewrite N; apply H|]. rewrite Nat.eqb_refl. destruct ok.
    + apply (inv_from1 (k x) (V x)); [exact A|apply H|auto|auto|]. intros e Ce. apply (psr_shift KO KS CO PO tD t false sign e c (V x)); [exact Ce|exact X1].
    + split; [exact X2|]. destruct X1 as (-> & _). exact IX.
  - destruct X as (h' & X & ->). destruct (inv_has _ _ A (H x)) as (WX & IX & LEX & TX). apply (scalar_mul_exceptions KO KS CO TO KL) in X as (X1 & X2 & _); [|exact WX]. cbn [load] in X1, X2. apply give_inv.
    + intros v. unfold unload. rewrite Nat.eqb_refl. unfold setv. destruct (Nat.eqb v x) eqn:EV; rewrite ?andb_true_r, ?andb_false_r; [|apply H]. apply Nat.eqb_eq in EV. subst v. destruct X2 as [->|[-> _]]; [destruct rx; [apply nothing|apply H]|apply nothing].
    + intros ->. rewrite X1. apply (inv_from1 (k x) (V x)); [exact A|apply H|auto|auto|]. intros e Ce. apply psr_scale. exact Ce.
  - destruct X as (h' & X & ->). destruct (inv_has _ _ A (H x)) as (WX & IX & LEX & TX). apply (in_place_scalar_mul_exceptions KO KS CO TO KL) in X as X1; [|exact WX]. cbn [load] in X1.
    unfold unload. rewrite Nat.eqb_refl. apply setv_inv.
    + intros w N. apply Nat.eqb_neq in N. rewrite N, andb_false_r. apply H.
    + rewrite Nat.eqb_refl, andb_true_r, X1. destruct ok; [|apply H]. apply (inv_from1 (k x) (V x)); [exact A|apply H|auto|auto|]. intros e Ce. apply psr_scale. exact Ce.
  - destruct X as (h' & X & ->). destruct (inv_has _ _ A (H x)) as (WX & IX & LEX & TX). apply (P_Hist.minus_ends KO KS CO KL) in X as [X1 X2]; [|exact WX]. cbn [load] in X1, X2. apply give_inv.
    + intros v. unfold unload. rewrite Nat.eqb_refl. unfold setv. destruct (Nat.eqb v x) eqn:EV; rewrite ?andb_true_r, ?andb_false_r; [|apply H]. apply Nat.eqb_eq in EV. subst v. destruct rx; [apply nothing|]. rewrite X2 by reflexivity. apply H.
    + intros ->. destruct X1 as [[_ X1]|X1]; [|discriminate]. rewrite X1. apply (inv_from1 (k x) (V x)); [exact A|apply H|auto|auto|]. intros e Ce. apply psr_minus. exact Ce.
  - destruct X as (s' & X & ->). destruct A as (U & ET & LV). destruct (inv_has _ _ U (H x)) as (WX & IX & _ & _). apply (set_truncation_exceptions KO KS CO PO tD KL HT) in X as (X1 & X2 & _); [|exact WX|exact LV].
    apply setv_inv; [intros w N; apply Nat.eqb_neq in N; rewrite N; apply H|]. rewrite Nat.eqb_refl. destruct ok.
    + apply (inv_limit (k x) (V x)); [exact U|apply H| |].
      * intros e Ce. apply (psr_limit KO KS CO PO tD t tV n e (V x) s' Ce ET LV X1).
      * pose proof (set_truncation_exact KO KS CO tD KL HT DI tV n (V x) WX LV) as S. rewrite X1 in S. destruct S as [(_ & _ & _ & _ & G & _)|[(Y & _)|(Y & _)]]; try discriminate Y. unfold get_truncation in G. congruence.
    + split; [exact X2|]. destruct X1 as [[_ ->]|(_ & _ & -> & _)]; [exact IX|intros z []].
  - destruct X as (s' & X & ->). destruct A as (U & ET & LV & SS). destruct (inv_has _ _ U (H x)) as (WX & IX & _ & _). apply (set_truncation_p_exceptions KO KS CO PO tD KL HT) in X as (X1 & X2 & _); [|exact WX|exact SS|exact LV].
    apply setv_inv; [intros w N; apply Nat.eqb_neq in N; rewrite N; apply H|]. rewrite Nat.eqb_refl. destruct ok.
    + apply (inv_limit (k x) (V x)); [exact U|apply H| |].
      * intros e Ce. apply (psr_limit_p KO KS CO PO tD t tV n s e (V x) s' Ce ET LV SS X1).
      * pose proof (set_truncation_p_exact KO KS CO tD KL HT DI tV n s (V x) WX LV SS) as S. rewrite X1 in S. destruct S as [(_ & _ & _ & _ & G & _)|[(Y & _)|(Y & _)]]; try discriminate Y. unfold get_truncation in G. congruence.
    + split; [exact X2|]. destruct X1 as [[_ ->]|(_ & _ & -> & _)]; [exact IX|intros z []].
  - destruct X as (h' & X & ->). destruct A as [U P]. destruct (inv_good _ _ U (H x)) as (e & b & _ & _ & _ & _ & G). apply P_Hist.call_ends in X; [|eapply unop_not_ub; eauto]. apply give_inv; [exact H|]. intros ->. destruct X as [[_ X]|X]; [|discriminate].
    apply (inv_from1 (k x) (V x)); [exact U|apply H| | |].
    + intros f Pf. destruct op; cbn [expr_of ps_proper]; auto. 
    + intros y L. destruct op; cbn [expr_of limited] in *; auto.
    + intros f Cf. destruct op as [onleft sign c| |ss]; cbn [expr_of call_ps_unop] in *; [eapply psr_shift|eapply psr_trimmed|eapply psr_with]; eauto.
  - destruct X as (h' & X & ->). destruct A as (U & U' & EO). destruct (inv_good _ _ U (H x)) as (e & b & _ & _ & _ & _ & G). destruct (inv_good _ _ U' (H y)) as (e' & b' & _ & _ & _ & _ & G'). apply P_Hist.call_ends in X; [|eapply mul_not_ub; eauto].
    apply give_inv; [exact H|]. intros ->. destruct X as [[_ X]|X]; [|discriminate]. apply (inv_product E (k x) (k y) (V x) (V y)); auto.
  - destruct X as (h' & X & ->). destruct A as (U & R & EO & CP). destruct (inv_good _ _ U (H x)) as (e & b & _ & _ & _ & _ & G). apply P_Hist.call_ends in X; [|eapply pow_not_ub; eauto].
    apply give_inv; [exact H|]. intros ->. destruct X as [[_ X]|X]; [|discriminate]. apply (inv_from1 (k x) (V x)); [exact U|apply H|auto|auto|]. intros f Cf. eapply psr_power; eauto.
Qed.

(** * Runs *)
Notation known_after := (@ps_known_after K C).
Notation proper_run := (ps_proper_run KO KS CO PO tD t us).
Lemma known_app (l : list (ps_cmd * bool)) : forall (c : ps_cmd) ok k, known_after (l ++ [(c, ok)]) k = after c ok (known_after l k).
Proof. induction l as [|[c0 ok0] l IH]; intros c ok k; [reflexivity|]. cbn [List.app ps_known_after]. apply IH. Qed.
Lemma proper_app (l : list (ps_cmd * bool)) : forall (c : ps_cmd) ok k, proper_run (l ++ [(c, ok)]) k <-> proper_run l k /\ allowed c (known_after l k).
Proof. induction l as [|[c0 ok0] l IH]; intros c ok k; cbn [List.app ps_known_after ps_proper_run]; [tauto|]. rewrite IH. tauto. Qed.
Lemma history_inv V0 l V k : history V0 l V -> (forall v, starts KO KS CO t us (k v) (V0 v)) -> proper_run l k -> inv_all (known_after l k) V.
Proof.
  intros H. induction H as [V0|V0 l V1 c ok V2 H IH X]; intros S P; [intros v; apply starts_inv, S|]. apply proper_app in P as [P A]. rewrite known_app. apply (step_inv c ok (known_after l k) V1 V2 (IH S P) A X).
Qed.

(** C106. Whatever is interrupted, and wherever: at any point of any run a variable with a known value is a valid power series, over symbols among us, not truncated or with the truncation of the program,
    whose coefficients within its truncation are those of the polynomial denoted by the statements that ended normally; what an interrupted call has worked on in place is a valid power series. *)
Theorem ps_history_exact : forall V0 l V k, history V0 l V -> (forall v, starts KO KS CO t us (k v) (V0 v)) -> proper_run l k ->
  forall v, has_value_of KO KS CO cz pw t us (known_after l k v) (V v).
Proof. intros V0 l V k H S P v. apply inv_value. apply (history_inv V0 l V k H S P). Qed.

(** C106. Hence what is in a variable depends only on the statements that ended normally, and not on when the truncation was set: any two runs, of whatever programs with this truncation, interrupted or not,
    whose results have the same truncation are found equal exactly if the statements that ended normally denote the same polynomial within it. *)
Theorem ps_histories_equal : forall V0 l V k v e b V0' l' V' k' v' e' b' q, history V0 l V -> history V0' l' V' ->
  (forall v, starts KO KS CO t us (k v) (V0 v)) -> (forall v, starts KO KS CO t us (k' v) (V0' v)) -> proper_run l k -> proper_run l' k' ->
  known_after l k v = Value e b -> known_after l' k' v' = Value e' b' -> s_tag (V v) = s_tag (V' v') ->
  series_equal_to KO CO PO TO (V v) (V' v') = Ok q -> (q = true <-> forall ws, within (s_tag (V v)) us ws = true -> total CO (denotes e) ws = total CO (denotes e') ws).
Proof.
  intros V0 l V k v e b V0' l' V' k' v' e' b' q H H' S S' P P' E E' TT Q. pose proof (history_inv V0 l V k H S P v) as X. pose proof (history_inv V0' l' V' k' H' S' P' v') as X'. rewrite E in X. rewrite E' in X'.
  destruct X as (Ce & Pe & _). destruct X' as (Ce' & Pe' & _). apply (ps_programs_equal KO KS CO PO tD KL CL HT DI HP cz pw t us SU BU ZF TK SF e e' (V v) (V' v') Pe Pe' Ce Ce' TT). exact Q.
Qed.

(** An interrupted call changes nothing but what it works on in place and what is passed to it with std::move. *)
Lemma step_frame (c : ps_cmd) ok (k : nat -> kn) (V V' : nat -> series) w : inv_all k V -> allowed c k -> exec c V (outcome ok) V' -> ~ In w (ps_may_change c ok) -> V' w = V w.
Proof.
  intros H A X N. assert (SV : forall (U : nat -> series) d s, d <> w -> setv U d s w = U w) by (intros U d s D; unfold setv; destruct (Nat.eqb w d) eqn:E; [apply Nat.eqb_eq in E; congruence|reflexivity]).
  assert (GV : forall (U : nat -> series) d s, (ok = true -> d <> w) -> give d (outcome ok) U s w = U w) by (intros U d s D; destruct ok; cbn [give]; [apply SV; auto|reflexivity]).
  destruct c as [d x|d x|d c|sign d x y rx ry|sign x y rx ry|sign x c|d x rx c|x c|d x rx|tV x n|tV x n s|d x op|E d x y|m E cpow d x n]; cbn [ps_exec ps_allowed ps_may_change] in *.
  - destruct X as (s' & _ & ->). apply SV. intros ->. apply N. left. reflexivity.
  - destruct X as (_ & ->). rewrite !SV; [reflexivity| |]; intros ->; apply N; [left|right; left]; reflexivity.
  - destruct X as (h' & _ & ->). apply GV. intros -> ->. apply N. left. reflexivity.
  - destruct X as (h' & X & ->). destruct A as [UX UY]. destruct (inv_has _ _ UX (H x)) as (WX & IX & LEX & TX). destruct (inv_has _ _ UY (H y)) as (WY & IY & LEY & TY).
    pose proof (P_Hist.second_load TO V x y) as SL. apply (ps_addsub_exceptions KO KS CO PO tD KL CL HT DI) in X as [_ X2]; [|apply P_Hist.second_or|exact WX|exact WY|exact TX|rewrite SL; exact TY|rewrite SL; cbn [load]; lia]. cbn [load] in X2. rewrite P_Hist.second_same in X2.
    rewrite GV by (intros -> ->; apply N; left; reflexivity). unfold unload. destruct (Nat.eqb x y) eqn:EXY.
    + apply Nat.eqb_eq in EXY. subst y. destruct X2 as [X2 _]. unfold setv. destruct (Nat.eqb w x) eqn:EV; [|reflexivity]. apply Nat.eqb_eq in EV. subst w. destruct X2 as [X2|[X2 _]]; [exact X2|]. exfalso. apply N, in_or_app. right. destruct rx; [left; reflexivity|]. destruct ry; [left; reflexivity|discriminate].
    + destruct X2 as [X2 X3]. unfold setv. destruct (Nat.eqb w y) eqn:EV.
      * apply Nat.eqb_eq in EV. subst w. destruct X3 as [X3|[-> _]]; [exact X3|]. exfalso. apply N, in_or_app. right. apply in_or_app. right. left. reflexivity.
      * destruct (Nat.eqb w x) eqn:EW; [|reflexivity]. apply Nat.eqb_eq in EW. subst w. destruct X2 as [X2|[-> _]]; [exact X2|]. exfalso. apply N, in_or_app. right. left. reflexivity.
  - destruct X as (h' & X & ->). destruct A as [UX UY]. destruct (inv_has _ _ UX (H x)) as (WX & IX & LEX & TX). destruct (inv_has _ _ UY (H y)) as (WY & IY & LEY & TY).
    pose proof (P_Hist.second_load TO V x y) as SL. apply (ps_in_place_exceptions KO KS CO PO tD KL CL HT DI) in X as (_ & _ & _ & _ & _ & X4); [|apply P_Hist.second_or|exact WX|exact WY|exact TX|rewrite SL; exact TY|rewrite SL; cbn [load]; lia]. cbn [load] in X4. assert (NX : x <> w) by (intros ->; apply N; left; reflexivity).
    unfold unload. destruct (Nat.eqb x y) eqn:EXY; [apply SV; exact NX|]. destruct X4 as [X4|(_ & -> & _)]; [|rewrite !SV; [reflexivity|exact NX|]; intros ->; apply N; right; left; reflexivity].
    rewrite X4. unfold setv. destruct (Nat.eqb w y) eqn:EV; [apply Nat.eqb_eq in EV; subst w; reflexivity|]. apply (SV V x (h' LX)). exact NX.
  - destruct X as (s' & _ & ->). apply SV. intros ->. apply N. left. reflexivity.
  - destruct X as (h' & X & ->). destruct (inv_has _ _ A (H x)) as (WX & _). apply (scalar_mul_exceptions KO KS CO TO KL) in X as (_ & X2 & _); [|exact WX]. cbn [load] in X2.
    rewrite GV by (intros -> ->; apply N; left; reflexivity). unfold unload. rewrite Nat.eqb_refl. unfold setv. destruct (Nat.eqb w x) eqn:EV; [|reflexivity]. apply Nat.eqb_eq in EV. subst w. destruct X2 as [X2|[-> _]]; [exact X2|]. exfalso. apply N, in_or_app. right. left. reflexivity.
  - destruct X as (h' & X & ->). destruct (inv_has _ _ A (H x)) as (WX & _). apply (in_place_scalar_mul_exceptions KO KS CO TO KL) in X as X1; [|exact WX]. cbn [load] in X1. unfold unload. rewrite Nat.eqb_refl. unfold setv. destruct (Nat.eqb w x) eqn:EV; [|reflexivity]. apply Nat.eqb_eq in EV. subst w.
    destruct ok; [exfalso; apply N; left; reflexivity|exact X1].
  - destruct X as (h' & X & ->). destruct (inv_has _ _ A (H x)) as (WX & _). apply (P_Hist.minus_ends KO KS CO KL) in X as [_ X2]; [|exact WX]. cbn [load] in X2. rewrite GV by (intros -> ->; apply N; left; reflexivity). unfold unload. rewrite Nat.eqb_refl. unfold setv. destruct (Nat.eqb w x) eqn:EV; [|reflexivity].
    apply Nat.eqb_eq in EV. subst w. destruct rx; [exfalso; apply N, in_or_app; right; left; reflexivity|]. apply X2. reflexivity.
  - destruct X as (s' & _ & ->). apply SV. intros ->. apply N. left. reflexivity.
  - destruct X as (s' & _ & ->). apply SV. intros ->. apply N. left. reflexivity.
  - destruct X as (h' & _ & ->). apply GV. intros -> ->. apply N. left. reflexivity.
  - destruct X as (h' & _ & ->). apply GV. intros -> ->. apply N. left. reflexivity.
  - destruct X as (h' & _ & ->). apply GV. intros -> ->. apply N. left. reflexivity.
Qed.
Theorem ps_history_frame : forall V0 l V k w, history V0 l V -> (forall v, starts KO KS CO t us (k v) (V0 v)) -> proper_run l k ->
  (forall c ok, In (c, ok) l -> ~ In w (ps_may_change c ok)) -> V w = V0 w.
Proof.
  intros V0 l V k w H. induction H as [V0|V0 l V1 c ok V2 H IH X]; intros S P N; [reflexivity|]. apply proper_app in P as [P A].
  rewrite <- IH; [|exact S|exact P|intros c' ok' J; apply N, in_or_app; left; exact J]. apply (step_frame c ok (known_after l k) V1 V2 w (history_inv V0 l V1 k H S P) A X). apply N, in_or_app. right. left. reflexivity.
Qed.
End PSH.

Print Assumptions ps_history_exact.
Print Assumptions ps_histories_equal.
Print Assumptions ps_history_frame.

(** * Non-vacuity: x = 1 + 2 a - 3 b^3 + 5 a b in the variables 0 and 2, y = 4 a - b in variable 1, not truncated.  [set_truncation(v2, 2)] is interrupted after the terms have been removed: v2 is empty.
    [v2 = v0] is interrupted, then done; [set_truncation(v2, 2)] is done; [v3 = v2 * v1] is interrupted, then done: v3 holds x y up to degree 2. *)
Notation psx := (ps_exec exK Z_cf exP tD).
Definition ph_V : nat -> series Z Z trunc_t := fun v => match v with 0%nat | 2%nat => ps9_x | 1%nat => ps_y | _ => dP end.
Definition ph_k : nat -> @ps_knowledge Z Z := fun v => match v with 0%nat | 2%nat => Value (Given ps9_x) false | 1%nat => Value (Given ps_y) false | _ => SomeSeries end.
Definition ph_t : list (@ps_cmd Z Z * bool) :=
  [(PLimit int32 2 2, false); (PCopy 2 0, false); (PCopy 2 0, true); (PLimit int32 2 2, true); (PMul (psE true 2) 3 2 1, false); (PMul (psE true 2) 3 2 1, true)]%nat.
Definition ph_prod := xmulx (psE true 2) px' ps_y.
Definition ph_cut := get dP (truncate_degree exK tD tD 2 ps9_x).
Lemma ph_filter : wf exK exS Z_cf ps9_x -> x_truncate_degree exK tD 2 ps9_x (Some tt) ph_cut.
Proof.
  intros W. assert (E : series_filter_res (kept_degree exK tD 2 (s_ss ps9_x)) ps9_x = Ok ph_cut) by (vm_compute; reflexivity).
  unfold x_truncate_degree. apply get_some. apply (filter_runs exK exS Z_cf exP exK_laws _ ps9_x ph_cut W E).
Qed.
Lemma ph_limit_done : wf exK exS Z_cf ps9_x -> x_set_truncation exK tD int32 2 ps9_x (Some tt) px'.
Proof.
  intros W. assert (E : safe_cast_int tD int32 2 = Ok 2) by (vm_compute; reflexivity). assert (EP : px' = set_tag ph_cut (total_truncation 2)) by (vm_compute; reflexivity).
  unfold x_set_truncation. apply (res_some _ _ _ _ _ 2 E). left. exists tt. split; [reflexivity|]. left. exists tt, ph_cut. split; [apply ph_filter; exact W|]. apply call_some. split; [reflexivity|exact EP].
Qed.
Lemma ph_limit_thrown : wf exK exS Z_cf ps9_x -> x_set_truncation exK tD int32 2 ps9_x None (series_clear ps_tag_ops ph_cut).
Proof.
  intros W. assert (E : safe_cast_int tD int32 2 = Ok 2) by (vm_compute; reflexivity).
  unfold x_set_truncation. apply (res_some _ _ _ _ _ 2 E). right. split; [reflexivity|]. exists ph_cut. split; [|reflexivity]. left. exists tt, ph_cut. split; [apply ph_filter; exact W|]. right. split; [reflexivity|]. split; [reflexivity|]. right. reflexivity.
Qed.
Example ex_ps_history : let us := ["a"; "b"; "c"]%string in
  (forall v, starts exK exS Z_cf t2 us (ph_k v) (ph_V v)) /\ ps_proper_run exK exS Z_cf exP tD t2 us ph_t ph_k /\
  exists V, ps_history exK Z_cf exP tD ph_V ph_t V /\ V 0%nat = ps9_x /\ V 1%nat = ps_y /\ s_tag (V 2%nat) = t2 /\ s_tag (V 3%nat) = t2 /\
  coef exS Z_cf us (V 3%nat) [2; 0; 0] = 8 /\ coef exS Z_cf us (V 3%nat) [2; 1; 0] = 0 /\
  ps_known_after ph_t ph_k 3%nat = Value (Product (Given ps9_x) (Given ps_y)) true /\
  total Z_cf (denotes exS Z_cf (fun z => z) Z.pow us (Product (Given ps9_x) (Given ps_y))) [2; 0; 0] = 8 /\ total Z_cf (denotes exS Z_cf (fun z => z) Z.pow us (Product (Given ps9_x) (Given ps_y))) [2; 1; 0] = 20.
Proof.
  intros us. destruct ps9_x_ok as (Wx & Tx & Nx & LV), ps_y_wf as (Wy & Sy & _ & Ty).
  assert (Sx : s_ss ps9_x = ["a"; "b"]%string) by (vm_compute; reflexivity).
  assert (IN : incl ["a"; "b"]%string us) by (intros z [<-|[<-|[]]]; cbn; tauto).
  assert (Ny : no_negative exS t2 ps_y).
  { right. intros k c J. assert (A : forallb (fun e => 0 <=? degree_of (counted t2) (s_ss ps_y) (ks_exps exS (len (s_ss ps_y)) (fst e))) (terms ps_y) = true) by (vm_compute; reflexivity).
    rewrite forallb_forall in A. specialize (A _ J). apply Z.leb_le. exact A. }
  assert (PX : starts exK exS Z_cf t2 us (Value (Given ps9_x) false) ps9_x).
  { cbn [starts]. rewrite Sx. split; [reflexivity|]. split; [discriminate|]. split; [exact Wx|]. split; [exact IN|]. split; [left; exact Tx|]. split; [intros k c _; rewrite Tx; reflexivity|exact Nx]. }
  assert (PY : starts exK exS Z_cf t2 us (Value (Given ps_y) false) ps_y).
  { cbn [starts]. rewrite Sy. split; [reflexivity|]. split; [discriminate|]. split; [exact Wy|]. split; [exact IN|]. split; [left; exact Ty|]. split; [intros k c _; rewrite Ty; reflexivity|exact Ny]. }
  assert (PD : starts exK exS Z_cf t2 us SomeSeries dP) by (split; [apply default_wf|intros z []]).
  split. { intros v. destruct v as [|[|[|v]]]; cbn [ph_k ph_V]; assumption. }
  split. { cbn [ph_t ps_proper_run ps_allowed ps_after ph_k Nat.eqb andb from2 truncated known]. split; [split; [exact I|]; split; [reflexivity|exact p_lv]|]. split; [discriminate|]. split; [discriminate|]. split; [split; [exact I|]; split; [reflexivity|exact p_lv]|].
    split; [split; [exact I|]; split; [exact I|apply psE_ok]|]. split; [split; [exact I|]; split; [exact I|apply psE_ok]|exact I]. }
  set (V1 := setv ph_V 2 (series_clear ps_tag_ops ph_cut)). set (V2 := setv V1 2 (V1 2%nat)). set (V3 := setv V2 2 ps9_x). set (V4 := setv V3 2 px'). set (V6 := setv V4 3 ph_prod).
  assert (H1 : psx (PLimit int32 2 2) ph_V None V1) by (exists (series_clear ps_tag_ops ph_cut); split; [apply ph_limit_thrown; exact Wx|reflexivity]).
  assert (H2 : psx (PCopy 2 0) V1 None V2) by (exists (V1 2%nat); split; [right; split; [reflexivity|]; left; reflexivity|reflexivity]).
  assert (H3 : psx (PCopy 2 0) V2 (Some tt) V3) by (exists ps9_x; split; [left; split; reflexivity|reflexivity]).
  assert (H4 : psx (PLimit int32 2 2) V3 (Some tt) V4) by (exists px'; split; [apply ph_limit_done; exact Wx|reflexivity]).
  assert (EP : ps_mul exK Z_cf exP (psE true 2) tD px' ps_y = Ok ph_prod) by (vm_compute; reflexivity).
  assert (H5 : psx (PMul (psE true 2) 3 2 1) V4 None V4) by (exists (load ps_tag_ops V4 2 1); split; [right; split; [reflexivity|]; split; [reflexivity|]; right; reflexivity|reflexivity]).
  assert (H6 : psx (PMul (psE true 2) 3 2 1) V4 (Some tt) V6).
  { exists (upd (load ps_tag_ops V4 2 1) LR ph_prod). split; [|cbn [give]; rewrite upd_same; reflexivity]. unfold x_call. apply call_some. apply (res_some _ _ _ _ _ ph_prod EP). apply call_some. split; reflexivity. }
  exists V6. split.
  - change ph_t with ((((((([] ++ [(PLimit int32 2 2, false)]) ++ [(PCopy 2 0, false)]) ++ [(PCopy 2 0, true)]) ++ [(PLimit int32 2 2, true)]) ++ [(PMul (psE true 2) 3 2 1, false)]) ++ [(PMul (psE true 2) 3 2 1, true)]))%nat.
    eapply ph_step; [|exact H6]. eapply ph_step; [|exact H5]. eapply ph_step; [|exact H4]. eapply ph_step; [|exact H3]. eapply ph_step; [|exact H2]. eapply ph_step; [constructor|exact H1].
  - split; [reflexivity|]. split; [reflexivity|]. do 6 (split; [vm_compute; reflexivity|]). vm_compute; reflexivity.
Qed.
