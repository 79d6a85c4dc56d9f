(** Property C107: equality is a congruence for all operations, and the laws of substitution, differentiation and truncation.  Vocabulary: ExprSpec.v ([expr], [denotes], [total]), LawSpec.v
    ([interchangeable]: one program comes from the other by replacing equals by equals), P_Expr.v ([computes]: the runs of a program). *)
From Coq Require Import ZArith List Bool String Arith Sorted Permutation Lia Ring Ring_theory.
From Verif Require Import Base KpackModel KpackSpec KpackProofs P_Kpack PMonProofs IntModel IntSpec SymModel SymSpec SymProofs P_Sym PMonModel PMonSpec KeyOps KeyInst
  SeriesModel SeriesModel2 SeriesSpec SeriesProofs SeriesProofs2 SeriesProofs3 SeriesProofs4 SeriesProofs5 SeriesProofs6 Lin EvalSpec SeriesEval SeriesProofs7 CfInst P_Series P_Series2
  PolyModel PolyModel2 PolySpec PolyProofs7 PolyProofs8 PolyProofs9 P_Poly P_Poly2 PowProofs PowProofs2 P_Pow CalcSpec DiffProofs IntegProofs P_Calc SubsSpec SubsProofs P_Subs DomProofs P_Dom ExprSpec P_Expr LawSpec.
Import ListNotations.
Open Scope Z_scope.
Open Scope res_scope.
Local Notation len := List.length.

Lemma expo_zeros z : forall (u : symbol_set) n, expo u (repeat 0 n) z = 0.
Proof. induction u as [|y u IH]; intros [|n]; try reflexivity. cbn [repeat expo]. destruct (String.eqb y z); auto. Qed.

Section PL.
Context {K C Tag : Type} (KO : key_ops K) (KS : key_sem K) (CO : cf_ops C) (PO : tbl_policy (K * C)) (TO : tag_ops Tag).
Context (KL : key_laws KO KS) (CL : cf_laws CO).
Context (cz : Z -> C) (CZ : int_embedding CO cz) (vpow : C -> Z -> res C) (pw : C -> Z -> C).
Context (tV tD : ity) (HT : integral_type tD) (DI : degrees_in KS tD).
Notation series := (series K C Tag).
Notation WF := (wf KO KS CO).
Notation coef := (coef KS CO).
Notation "0c" := (c_zero CO).
Notation "1c" := (c_one CO).
Infix "+c" := (c_add CO) (at level 50, left associativity).
Infix "*c" := (c_mul CO) (at level 40, left associativity).
Add Ring CringPL : (cl_ring _ CL).
Notation vterm := (list Z * C)%type.
Notation vt := (vt KS).
Notation expr := (@expr K C Tag).
Notation proper := (proper KO KS CO pw).
Notation computes := (computes KO KS CO PO TO cz vpow pw tV tD).
Context (us : symbol_set) (SU : sorted_set us) (BU : 2 * Z.of_nat (len us) <= imax size_t) (ZF : forall n, (n <= len us)%nat -> ks_fits KS (repeat 0 n)).
Notation denotes := (denotes KS CO cz pw us).
Notation total := (total CO).
Notation same := (same CO).
Notation "a ~ b" := (interchangeable KS CO cz pw us a b) (at level 70).
Notation mono sm v := (mono 1c (c_mul CO) pw sm us v us).
Let NU : NoDup us := sorted_set_nodup us SU.

(** * Equality is a congruence *)
Lemma denote_same_iff (a b : expr) : denote_same KS CO cz pw us a b <-> same (denotes a) (denotes b).
Proof. split; [intros H; apply (same_eqb CO CL); exact H|intros H ws; exact (H (fun v => vec_eqb v ws))]. Qed.
Lemma sum_cong (sign : bool) (F F' G G' : list vterm) : same F F' -> same G G' -> same (f_sum CO sign F G) (f_sum CO sign F' G').
Proof. intros HF HG Q. rewrite !(sum_psum CO CL), (HF Q), (HG Q). reflexivity. Qed.
Lemma mul_cong (F F' G G' : list vterm) : same F F' -> same G G' -> same (f_mul CO F G) (f_mul CO F' G').
Proof. intros HF HG. rewrite !f_mul_vprod. apply (same_prod CO CL); assumption. Qed.
Lemma interchangeable_same (a b : expr) : a ~ b -> same (denotes a) (denotes b).
Proof.
  induction 1 as [a b H|a b c H IH H' IH'|sign a a' b b' H IH H' IH'|sign a a' b b' H IH H' IH'|a a' H IH|a a' c H IH|onleft sign a a' c H IH|a a' b b' H IH H' IH'|a a' n H IH|a a' s H IH|a a' H IH|a a' ss ss' H IH|a a' lim H IH|a a' lim syms H IH|a a' sm H IH]; cbn [ExprSpec.denotes].
  - apply denote_same_iff. exact H.
  - eapply same_trans; eauto.
  - apply sum_cong; auto.
  - apply sum_cong; auto.
  - intros Q. rewrite !(neg_psum CO CL), (IH Q). reflexivity.
  - apply mul_cong; [exact IH|apply same_refl].
  - destruct onleft; apply sum_cong; try apply same_refl; exact IH.
  - apply mul_cong; auto.
  - apply (pow_same CO CL). exact IH.
  - rewrite !f_diff_dterm. apply (dterm_same CO CL cz). exact IH.
  - exact IH.
  - exact IH.
  - intros Q. unfold f_low. rewrite !(low_psum CO CL Q (fun v => degree_of all_symbols us v <=? lim)). apply IH.
  - intros Q. unfold f_low. rewrite !(low_psum CO CL Q (fun v => degree_of (one_of syms) us v <=? lim)). apply IH.
  - apply (map_same CO CL (fun v => keep sm us v) (fun v => mono sm v)). exact IH.
Qed.

(** C107. Replacing parts of a program by parts that denote the same polynomial does not change what it computes: the results have the same coefficients over any symbols and are found equal. *)
Theorem interchangeable_equal : forall e e' r r', e ~ e' -> proper us e -> proper us e' -> computes e r -> computes e' r' ->
  (forall vs ws, coef vs r ws = coef vs r' ws) /\ (forall b, series_equal_to KO CO PO TO r r' = Ok b -> tags_equal TO (s_tag r) (s_tag r') -> b = true).
Proof.
  intros e e' r r' I P P' H H'. apply interchangeable_same in I. destruct (programs_equal KO KS CO PO TO KL CL cz CZ vpow pw tV tD HT DI us SU BU ZF e e' r r' P P' H H') as [A B].
  assert (T : forall ws, total (denotes e) ws = total (denotes e') ws) by (intros ws; exact (I (fun v => vec_eqb v ws))). split; [apply A; exact T|]. intros b E TG. apply (B b E TG). exact T.
Qed.

(** C107. Objects that operator== finds equal are interchangeable: no operation distinguishes them. *)
Theorem equal_interchangeable : forall x y : series, WF x -> WF y -> incl (s_ss x) us -> incl (s_ss y) us -> series_equal_to KO CO PO TO x y = Ok true -> Given x ~ Given y.
Proof.
  intros x y Wx Wy Ix Iy E. pose proof (NoDup_incl_length (sorted_set_nodup _ (wf_ss _ _ _ _ Wx)) Ix). pose proof (NoDup_incl_length (sorted_set_nodup _ (wf_ss _ _ _ _ Wy)) Iy).
  destruct (equality_exact KO KS CO PO TO KL CL x y Wx Wy ltac:(lia)) as [(b & E' & _ & Q)|[[X|X] _]]; try congruence. assert (b = true) by congruence. subst b. destruct (proj1 Q eq_refl) as [_ D].
  apply ic_law. apply denote_same_iff. cbn [ExprSpec.denotes]. rewrite !as_formal_vt. apply (same_eqb CO CL). intros w. rewrite !vt_psum, <- !coef_nden. apply D; split; auto.
Qed.

(** C107. trim and add_symbols do not change what a program computes; the in-place operators compute what the binary ones do. *)
Theorem presentation_laws : forall (a b : expr) sign ss, Trimmed a ~ a /\ With a ss ~ a /\ Assign sign a b ~ Sum sign a b.
Proof. intros a b sign ss. split; [|split]; apply ic_law; intros ws; reflexivity. Qed.

(** * Substitution *)
Lemma expo_keep (sm : symbol_map C) v z : In z us -> expo us (keep sm us v) z = match assoc sm z with Some _ => 0 | None => expo us v z end.
Proof. intros I. unfold keep. rewrite expo_map. destruct (in_dec string_dec z us); [reflexivity|contradiction]. Qed.
Lemma vec_ext v w : len v = len us -> len w = len us -> (forall z, In z us -> expo us v z = expo us w z) -> v = w.
Proof. intros L L' H. rewrite <- (map_expo_self us v NU L), <- (map_expo_self us w NU L'). apply map_ext_in. exact H. Qed.
Lemma keep_length (sm : symbol_map C) v : len (keep sm us v) = len us. Proof. unfold keep. apply map_length. Qed.
Lemma mono_ext (sm : symbol_map C) v w : (forall z, In z us -> assoc sm z <> None -> expo us v z = expo us w z) -> mono sm v = mono sm w.
Proof.
  intros H. unfold EvalSpec.mono. f_equal. apply map_ext_in. intros z I. unfold factor. destruct (assoc sm z) eqn:A; [|reflexivity]. rewrite (H z I); [reflexivity|congruence].
Qed.
Lemma fold_prod (f g h : string -> C) l : (forall z, In z l -> f z *c g z = h z) -> fold_right (c_mul CO) 1c (map f l) *c fold_right (c_mul CO) 1c (map g l) = fold_right (c_mul CO) 1c (map h l).
Proof. induction l as [|z l IH]; intros H; cbn [map fold_right]; [ring|]. rewrite <- IH by (intros; apply H; right; assumption). rewrite <- (H z) by (left; reflexivity). ring. Qed.
Lemma pow0_at (sm : symbol_map C) z v : pow0 1c pw sm -> assoc sm z = Some v -> pw v 0 = 1c.
Proof. intros P A. unfold assoc in A. destruct (find _ sm) as [[z' v']|] eqn:F; [|discriminate]. apply List.find_some in F as [I _]. cbn in A. assert (v' = v) by congruence. subst v'. eapply P; eauto. Qed.
Lemma mono_none (sm : symbol_map C) v : (forall z, In z us -> assoc sm z = None) -> mono sm v = 1c.
Proof. intros H. unfold EvalSpec.mono. assert (X : forall l, (forall z, In z l -> In z us) -> fold_right (c_mul CO) 1c (map (factor 1c pw sm us v) l) = 1c).
  { induction l as [|z l IH]; intros I; cbn [map fold_right]; [reflexivity|]. rewrite IH by (intros; apply I; right; assumption). unfold factor. rewrite H by (apply I; left; reflexivity). ring. } apply X. auto. Qed.
Lemma mono_zero (sm : symbol_map C) : pow0 1c pw sm -> mono sm (repeat 0 (len us)) = 1c.
Proof. intros P. unfold EvalSpec.mono. assert (X : forall l : list string, fold_right (c_mul CO) 1c (map (factor 1c pw sm us (repeat 0 (len us))) l) = 1c).
  { induction l as [|z l IH]; cbn [map fold_right]; [reflexivity|]. rewrite IH. unfold factor. destruct (assoc sm z) eqn:A; [|ring].
    rewrite expo_zeros, (pow0_at sm z c P A). ring. } apply X. Qed.
Lemma keep_zero (sm : symbol_map C) : keep sm us (repeat 0 (len us)) = repeat 0 (len us).
Proof. apply vec_ext; [apply keep_length|apply repeat_length|]. intros z I. rewrite expo_keep by exact I. destruct (assoc sm z); [|reflexivity]. symmetry. apply expo_zeros. Qed.
Lemma law (a b : expr) : denotes a = denotes b -> a ~ b.
Proof. intros E. apply ic_law. intros ws. rewrite E. reflexivity. Qed.
Lemma subs_app (sm : symbol_map C) (F G : list vterm) : f_subs CO pw us sm (F ++ G) = f_subs CO pw us sm F ++ f_subs CO pw us sm G. Proof. apply map_app. Qed.
Lemma subs_neg (sm : symbol_map C) (F : list vterm) : f_subs CO pw us sm (f_neg CO F) = f_neg CO (f_subs CO pw us sm F).
Proof. unfold f_subs, f_neg. rewrite !map_map. apply map_ext. intros [v c]. cbn [fst snd]. f_equal. ring. Qed.
Lemma subs_fsum (sm : symbol_map C) (sign : bool) (F G : list vterm) : f_subs CO pw us sm (f_sum CO sign F G) = f_sum CO sign (f_subs CO pw us sm F) (f_subs CO pw us sm G).
Proof. unfold f_sum. rewrite subs_app. destruct sign; [reflexivity|]. rewrite subs_neg. reflexivity. Qed.
Lemma list_prod_map {A B A' B'} (f : A -> A') (g : B -> B') l l' : list_prod (map f l) (map g l') = map (fun p => (f (fst p), g (snd p))) (list_prod l l').
Proof. induction l as [|x l IH]; [reflexivity|]. cbn [map list_prod]. rewrite IH, map_app, !map_map. reflexivity. Qed.
Lemma subs_fmul (Ex : Z -> Prop) (sm : symbol_map C) (F G : list vterm) : sorted_set (map fst sm) -> pow_adds (c_mul CO) pw Ex sm ->
  (forall t, In t F -> len (fst t) = len us /\ Forall Ex (fst t)) -> (forall t, In t G -> len (fst t) = len us /\ Forall Ex (fst t)) ->
  f_subs CO pw us sm (f_mul CO F G) = f_mul CO (f_subs CO pw us sm F) (f_subs CO pw us sm G).
Proof.
  intros SM PA HF HG. unfold f_subs, f_mul. rewrite list_prod_map, !map_map. apply map_ext_in. intros [[v c] [w d]] I. apply in_prod_iff in I as [I J]. destruct (HF _ I) as [LF EF]. destruct (HG _ J) as [LG EG]. cbn [fst snd] in *.
  rewrite (mono_vadd CO 0c 1c (c_add CO) (c_mul CO) (c_sub CO) (c_neg CO) (cl_ring _ CL) vpow pw (fun c => c) eq_refl Ex sm us us v w SM PA NU LF LG EF EG). f_equal; [|ring].
  assert (LA : len (vadd v w) = len us) by (apply vadd_len; assumption). assert (LB : len (vadd (keep sm us v) (keep sm us w)) = len us) by (apply vadd_len; apply keep_length).
  apply vec_ext; [apply keep_length|exact LB|]. intros z Iz. rewrite expo_keep by exact Iz. rewrite !expo_vadd by (rewrite ?keep_length; auto). rewrite !expo_keep by exact Iz. destruct (assoc sm z); lia.
Qed.

(** C107. subs is additive. *)
Theorem subs_sum : forall sign (a b : expr) sm, Substitute (Sum sign a b) sm ~ Sum sign (Substitute a sm) (Substitute b sm).
Proof. intros sign a b sm. apply law. cbn [ExprSpec.denotes]. apply subs_fsum. Qed.
(** C107. subs is multiplicative, and hence compatible with powers, if the powers of the values obey v^(p+q) = v^p v^q for the exponents that occur. *)
Theorem subs_product : forall (Ex : Z -> Prop) (a b : expr) sm, sorted_set (map fst sm) -> pow_adds (c_mul CO) pw Ex sm -> exponents KS CO cz pw us Ex a -> exponents KS CO cz pw us Ex b ->
  Substitute (Product a b) sm ~ Product (Substitute a sm) (Substitute b sm).
Proof.
  intros Ex a b sm SM PA EA EB. apply law. cbn [ExprSpec.denotes]. apply (subs_fmul Ex); [exact SM|exact PA| |]; intros t I; (split; [eapply denotes_len; eauto|]); [apply EA|apply EB]; exact I.
Qed.
Theorem subs_power : forall (Ex : Z -> Prop) (a : expr) n sm, sorted_set (map fst sm) -> pow0 1c pw sm -> pow_adds (c_mul CO) pw Ex sm -> (forall p q, Ex p -> Ex q -> Ex (p + q)) -> exponents KS CO cz pw us Ex a ->
  Substitute (Power a n) sm ~ Power (Substitute a sm) n.
Proof.
  intros Ex a n sm SM P0 PA EA HA. apply law. cbn [ExprSpec.denotes].
  assert (E0 : Ex 0) by apply PA. assert (X : f_subs CO pw us sm (f_pow CO us (denotes a) n) = f_pow CO us (f_subs CO pw us sm (denotes a)) n /\ forall t, In t (f_pow CO us (denotes a) n) -> len (fst t) = len us /\ Forall Ex (fst t)); [|apply X].
  assert (HD : forall t, In t (denotes a) -> len (fst t) = len us /\ Forall Ex (fst t)) by (intros t I; split; [eapply denotes_len; eauto|apply HA; exact I]).
  induction n as [|n [IH IHE]]; cbn [f_pow].
  - split; [unfold f_subs, f_const; cbn [map fst snd]; rewrite keep_zero, mono_zero by exact P0; f_equal; f_equal; ring|]. intros t [<-|[]]. cbn [fst]. split; [apply repeat_length|]. apply Forall_forall. intros y J. apply repeat_spec in J. subst y. exact E0.
  - split; [rewrite <- IH; apply (subs_fmul Ex); auto|]. intros t I. unfold f_mul in I. apply in_map_iff in I as ([[v c] [w d]] & <- & I). apply in_prod_iff in I as [I J]. destruct (IHE _ I) as [L1 F1]. destruct (HD _ J) as [L2 F2]. cbn [fst snd] in *.
    split; [apply vadd_len; assumption|]. clear - F1 F2 EA. revert w F2. induction F1 as [|p v Hp Hv IHv]; intros w F2; [destruct w; constructor|]. destruct F2 as [|q w Hq Hw]; [constructor|]. cbn. constructor; [apply EA; assumption|apply IHv; exact Hw].
Qed.
(** C107. One substitution after another is one substitution, in which the first has precedence; what does not occur need not be replaced; numbers are not changed. *)
Theorem subs_twice : forall (a : expr) sm1 sm2 sm, first_then sm1 sm2 sm -> pow0 1c pw sm2 -> Substitute (Substitute a sm1) sm2 ~ Substitute a sm.
Proof.
  intros a sm1 sm2 sm F P2. apply law. cbn [ExprSpec.denotes]. unfold f_subs. rewrite map_map. apply map_ext_in. intros [v c] I. cbn [fst snd]. f_equal.
  - apply vec_ext; try apply keep_length. intros z Iz. rewrite !expo_keep by exact Iz. rewrite (F z). destruct (assoc sm1 z); [|reflexivity]. destruct (assoc sm2 z); reflexivity.
  - assert (M : mono sm2 (keep sm1 us v) *c mono sm1 v = mono sm v).
    { unfold EvalSpec.mono. apply fold_prod. intros z Iz. unfold factor. rewrite (F z), expo_keep by exact Iz. destruct (assoc sm1 z) as [u|]; destruct (assoc sm2 z) as [w|] eqn:A2; try ring. rewrite (pow0_at sm2 z w P2 A2). ring. }
    rewrite <- M. ring.
Qed.
Theorem subs_none : forall (a : expr) sm, replaces_none sm us -> Substitute a sm ~ a.
Proof.
  intros a sm N. apply law. cbn [ExprSpec.denotes]. unfold f_subs. rewrite <- (map_id (denotes a)) at 2. apply map_ext_in. intros [v c] I. cbn [fst snd]. rewrite mono_none by exact N. f_equal; [|ring].
  pose proof (denotes_len KS CO cz pw us a _ I) as L. cbn [fst] in L. apply vec_ext; [apply keep_length|exact L|]. intros z Iz. rewrite expo_keep by exact Iz. rewrite (N z Iz). reflexivity.
Qed.
Theorem subs_number : forall c sm, pow0 1c pw sm -> Substitute (Number c : expr) sm ~ Number c.
Proof. intros c sm P. apply law. cbn [ExprSpec.denotes]. unfold f_subs, f_const. cbn [map fst snd]. rewrite keep_zero, mono_zero by exact P. f_equal. f_equal. ring. Qed.
(** C107. Differentiation with respect to a symbol that is not replaced commutes with the substitution; the derivative with respect to a replaced symbol is zero afterwards. *)
Theorem subs_diff : forall (a : expr) sm s, assoc sm s = None -> Derivative (Substitute a sm) s ~ Substitute (Derivative a s) sm.
Proof.
  intros a sm s N. apply law. cbn [ExprSpec.denotes]. unfold f_subs, f_diff. rewrite !map_map. apply map_ext_in. intros [v c] I. cbn [fst snd]. pose proof (denotes_len KS CO cz pw us a _ I) as L. cbn [fst] in L. f_equal.
  - apply vec_ext; [apply bump_len, keep_length|apply keep_length|]. intros z Iz. rewrite expo_bump by apply keep_length. rewrite !expo_keep by exact Iz. rewrite expo_bump by exact L. destruct (String.eqb z s) eqn:E; [apply String.eqb_eq in E; subst z; rewrite N|]; reflexivity.
  - assert (E1 : mono sm (bump us s (-1) v) = mono sm v). { apply mono_ext. intros z Iz A. rewrite expo_bump by exact L. destruct (String.eqb z s) eqn:E; [apply String.eqb_eq in E; subst z; congruence|reflexivity]. }
    rewrite E1. destruct (in_dec string_dec s us) as [J|J]; [rewrite expo_keep by exact J; rewrite N; ring|]. rewrite !expo_notin by exact J. ring.
Qed.

(** * Derivatives *)
Lemma psum_law (a b : expr) : same (denotes a) (denotes b) -> a ~ b.
Proof. intros E. apply ic_law. apply denote_same_iff. exact E. Qed.
Lemma diff_fsum s (sign : bool) (F G : list vterm) : f_diff CO cz us s (f_sum CO sign F G) = f_sum CO sign (f_diff CO cz us s F) (f_diff CO cz us s G).
Proof.
  unfold f_sum, f_diff. rewrite map_app. destruct sign; [reflexivity|]. f_equal. unfold f_neg. rewrite !map_map. apply map_ext. intros [v c]. cbn [fst snd]. f_equal. ring.
Qed.
(** C107. diff is additive, obeys the product rule, and derivatives commute. *)
Theorem diff_sum : forall sign (a b : expr) s, Derivative (Sum sign a b) s ~ Sum sign (Derivative a s) (Derivative b s).
Proof. intros sign a b s. apply law. apply diff_fsum. Qed.
Theorem diff_product : forall (a b : expr) s, Derivative (Product a b) s ~ Sum true (Product (Derivative a s) b) (Product a (Derivative b s)).
Proof.
  intros a b s. apply psum_law. cbn [ExprSpec.denotes]. unfold f_sum. rewrite !f_diff_dterm, !f_mul_vprod.
  apply (dterm_product CO CL cz CZ); intros t I; eapply denotes_len; eauto.
Qed.
Theorem program_diff_commute : forall (a : expr) s t, Derivative (Derivative a s) t ~ Derivative (Derivative a t) s.
Proof.
  intros a s t. apply law. cbn [ExprSpec.denotes]. unfold f_diff. rewrite !map_map. apply map_ext_in. intros [v c] I. cbn [fst snd]. pose proof (denotes_len KS CO cz pw us a _ I) as L. cbn [fst] in L.
  assert (B1 : forall x, len (bump us x (-1) v) = len us) by (intros x; apply bump_len; exact L). f_equal.
  - apply vec_ext; try (apply bump_len, B1). intros z Iz. rewrite !expo_bump by (auto; apply B1). destruct (String.eqb z s) eqn:E1, (String.eqb z t) eqn:E2; try reflexivity. apply String.eqb_eq in E1. apply String.eqb_eq in E2. subst s. subst t. reflexivity.
  - destruct (string_dec s t) as [->|N]; [reflexivity|]. rewrite !expo_bump by exact L. apply String.eqb_neq in N. rewrite N. rewrite String.eqb_sym in N. rewrite N. ring.
Qed.

(** * Truncation *)
Lemma filter_map_comm {A B} (f : A -> B) p l : filter p (map f l) = map f (filter (fun x => p (f x)) l).
Proof. induction l as [|x l IH]; [reflexivity|]. cbn [map filter]. destruct (p (f x)); cbn [map]; rewrite IH; reflexivity. Qed.
Lemma filter_filter {A} (p q : A -> bool) l : filter p (filter q l) = filter (fun x => q x && p x) l.
Proof. induction l as [|x l IH]; [reflexivity|]. cbn [filter]. destruct (q x); cbn [filter andb]; rewrite IH; reflexivity. Qed.
Lemma low_fsum sel lim (sign : bool) (F G : list vterm) : f_low sel us lim (f_sum CO sign F G) = f_sum CO sign (f_low sel us lim F) (f_low sel us lim G).
Proof. unfold f_low, f_sum. rewrite filter_app. destruct sign; [reflexivity|]. f_equal. unfold f_neg. rewrite filter_map_comm. reflexivity. Qed.
Lemma low_flow sel l1 l2 (F : list vterm) : f_low sel us l2 (f_low sel us l1 F) = f_low sel us (Z.min l1 l2) F.
Proof. unfold f_low. rewrite filter_filter. apply filter_ext. intros t. destruct (Z.leb_spec (degree_of sel us (fst t)) l1), (Z.leb_spec (degree_of sel us (fst t)) l2), (Z.leb_spec (degree_of sel us (fst t)) (Z.min l1 l2)); cbn [andb]; lia. Qed.
Lemma filter_nil {A} (p : A -> bool) l : (forall x, In x l -> p x = false) -> filter p l = [].
Proof. intros H. induction l as [|x l IH]; [reflexivity|]. cbn [filter]. rewrite H by (left; reflexivity). apply IH. intros y I. apply H. right. exact I. Qed.
Lemma filter_prod {A B} (P : A * B -> bool) (p : A -> bool) (q : B -> bool) l l' : (forall x y, In x l -> In y l' -> P (x, y) = true -> p x = true /\ q y = true) ->
  filter P (list_prod l l') = filter P (list_prod (filter p l) (filter q l')).
Proof.
  induction l as [|x l IH]; intros H; [reflexivity|]. cbn [list_prod]. rewrite filter_app, IH by (intros; apply H; auto; right; assumption).
  assert (X : filter P (map (fun y => (x, y)) l') = if p x then filter P (map (fun y => (x, y)) (filter q l')) else []).
  { destruct (p x) eqn:E.
    - rewrite !filter_map_comm. f_equal. rewrite filter_filter. apply filter_ext_in. intros y Iy. destruct (P (x, y)) eqn:EP; [|destruct (q y); reflexivity]. destruct (H x y (or_introl eq_refl) Iy EP) as [_ ->]. reflexivity.
    - apply filter_nil. intros z Iz. apply in_map_iff in Iz as (y & <- & Iy). destruct (P (x, y)) eqn:EP; [|reflexivity]. destruct (H x y (or_introl eq_refl) Iy EP) as [Y _]. congruence. }
  rewrite X. cbn [filter]. destruct (p x); [|reflexivity]. cbn [list_prod]. rewrite filter_app. reflexivity.
Qed.
Lemma low_fmul sel lim (F G : list vterm) : (forall t, In t F -> len (fst t) = len us /\ 0 <= degree_of sel us (fst t)) -> (forall t, In t G -> len (fst t) = len us /\ 0 <= degree_of sel us (fst t)) ->
  f_low sel us lim (f_mul CO F G) = f_low sel us lim (f_mul CO (f_low sel us lim F) (f_low sel us lim G)).
Proof.
  intros HF HG. unfold f_low, f_mul. rewrite !filter_map_comm. f_equal. apply filter_prod. intros x y Ix Iy. cbn [fst snd]. destruct (HF _ Ix) as [L1 N1]. destruct (HG _ Iy) as [L2 N2].
  rewrite degree_vadd by assumption. rewrite !Z.leb_le. lia.
Qed.
Lemma low_in_low sel lim (F : list vterm) t : In t (f_low sel us lim F) -> In t F.
Proof. intros I. apply filter_In in I as [I _]. exact I. Qed.
Lemma fmul_nonneg sel (F G : list vterm) : (forall t, In t F -> len (fst t) = len us /\ 0 <= degree_of sel us (fst t)) -> (forall t, In t G -> len (fst t) = len us /\ 0 <= degree_of sel us (fst t)) ->
  forall t, In t (f_mul CO F G) -> len (fst t) = len us /\ 0 <= degree_of sel us (fst t).
Proof.
  intros HF HG t I. unfold f_mul in I. apply in_map_iff in I as ([x y] & <- & I). apply in_prod_iff in I as [I J]. cbn [fst snd]. destruct (HF _ I) as [L1 N1]. destruct (HG _ J) as [L2 N2]. split; [apply vadd_len; assumption|]. rewrite degree_vadd by assumption. lia.
Qed.
Lemma degree_zero sel : degree_of sel us (repeat 0 (len us)) = 0.
Proof. rewrite <- (map_expo_self us (repeat 0 (len us)) NU (repeat_length _ _)), degree_wsum. rewrite (wsum_ext _ (fun _ => 0)); [apply wsum_zero|]. intros z _. rewrite expo_zeros. destruct (sel z); reflexivity. Qed.
Lemma fpow_nonneg sel (F : list vterm) n : (forall t, In t F -> len (fst t) = len us /\ 0 <= degree_of sel us (fst t)) -> forall t, In t (f_pow CO us F n) -> len (fst t) = len us /\ 0 <= degree_of sel us (fst t).
Proof. intros H. induction n as [|n IH]; cbn [f_pow]; [|apply fmul_nonneg; assumption]. intros t [<-|[]]. cbn [fst]. split; [apply repeat_length|]. rewrite degree_zero. lia. Qed.
Lemma low_fpow sel lim (F : list vterm) n : (forall t, In t F -> len (fst t) = len us /\ 0 <= degree_of sel us (fst t)) -> f_low sel us lim (f_pow CO us F n) = f_low sel us lim (f_pow CO us (f_low sel us lim F) n).
Proof.
  intros H. assert (H' : forall t, In t (f_low sel us lim F) -> len (fst t) = len us /\ 0 <= degree_of sel us (fst t)) by (intros t I; apply H; eapply low_in_low; eauto).
  induction n as [|n IH]; [reflexivity|]. cbn [f_pow]. rewrite low_fmul by (try apply fpow_nonneg; assumption). rewrite IH. rewrite (low_fmul sel lim (f_pow CO us (f_low sel us lim F) n) (f_low sel us lim F)) by (try apply fpow_nonneg; assumption).
  rewrite (low_flow sel lim lim F), Z.min_id. reflexivity.
Qed.
Lemma nonneg_terms sel (a : expr) : nonnegative KS CO cz pw us sel a -> forall t, In t (denotes a) -> len (fst t) = len us /\ 0 <= degree_of sel us (fst t).
Proof. intros H t I. split; [eapply denotes_len; eauto|apply H; exact I]. Qed.

(** C107. truncate_degree and truncate_p_degree: truncations of sums, repeated truncations. *)
Theorem low_sum : forall sign (a b : expr) lim, Low (Sum sign a b) lim ~ Sum sign (Low a lim) (Low b lim).
Proof. intros sign a b lim. apply law. apply low_fsum. Qed.
Theorem low_in_sum : forall sign (a b : expr) lim syms, LowIn (Sum sign a b) lim syms ~ Sum sign (LowIn a lim syms) (LowIn b lim syms).
Proof. intros sign a b lim syms. apply law. apply low_fsum. Qed.
Theorem low_low : forall (a : expr) l1 l2, Low (Low a l1) l2 ~ Low a (Z.min l1 l2).
Proof. intros a l1 l2. apply law. apply low_flow. Qed.
Theorem low_in_low_in : forall (a : expr) l1 l2 syms, LowIn (LowIn a l1 syms) l2 syms ~ LowIn a (Z.min l1 l2) syms.
Proof. intros a l1 l2 syms. apply law. apply low_flow. Qed.
(** C107. Without negative degrees the truncation of a product, or of a power, needs the operands only up to the limit. *)
Theorem low_product : forall (a b : expr) lim, nonnegative KS CO cz pw us all_symbols a -> nonnegative KS CO cz pw us all_symbols b -> Low (Product a b) lim ~ Low (Product (Low a lim) (Low b lim)) lim.
Proof. intros a b lim HA HB. apply law. apply low_fmul; apply nonneg_terms; assumption. Qed.
Theorem low_in_product : forall (a b : expr) lim syms, nonnegative KS CO cz pw us (one_of syms) a -> nonnegative KS CO cz pw us (one_of syms) b -> LowIn (Product a b) lim syms ~ LowIn (Product (LowIn a lim syms) (LowIn b lim syms)) lim syms.
Proof. intros a b lim syms HA HB. apply law. apply low_fmul; apply nonneg_terms; assumption. Qed.
Theorem low_power : forall (a : expr) n lim, nonnegative KS CO cz pw us all_symbols a -> Low (Power a n) lim ~ Low (Power (Low a lim) n) lim.
Proof. intros a n lim HA. apply law. apply low_fpow. apply nonneg_terms. exact HA. Qed.
Theorem low_in_power : forall (a : expr) n lim syms, nonnegative KS CO cz pw us (one_of syms) a -> LowIn (Power a n) lim syms ~ LowIn (Power (LowIn a lim syms) n) lim syms.
Proof. intros a n lim syms HA. apply law. apply low_fpow. apply nonneg_terms. exact HA. Qed.
(** C107. Truncation in symbols that are not replaced commutes with the substitution. *)
Theorem low_in_subs : forall (a : expr) sm lim syms, replaces_none sm syms -> LowIn (Substitute a sm) lim syms ~ Substitute (LowIn a lim syms) sm.
Proof.
  intros a sm lim syms N. apply law. cbn [ExprSpec.denotes]. unfold f_low, f_subs. rewrite filter_map_comm. f_equal. apply filter_ext_in. intros [v c] I. cbn [fst snd]. pose proof (denotes_len KS CO cz pw us a _ I) as L. cbn [fst] in L. f_equal.
  unfold keep. replace (degree_of (one_of syms) us v) with (degree_of (one_of syms) us (map (expo us v) us)) by (rewrite map_expo_self by auto; reflexivity). rewrite !degree_wsum. apply wsum_ext. intros z Iz. unfold one_of. destruct (in_dec string_dec z syms) as [Iy|Iy]; [|reflexivity]. rewrite (N z Iy). reflexivity.
Qed.
(** C107. Differentiation lowers the degree by one, or not at all if the degree does not count the symbol. *)
Lemma degree_bump sel s n v : len v = len us -> degree_of sel us (bump us s n v) = degree_of sel us v + (if in_dec string_dec s us then if sel s then n else 0 else 0).
Proof.
  intros L. assert (LB : len (bump us s n v) = len us) by (apply bump_len; exact L). replace (degree_of sel us (bump us s n v)) with (degree_of sel us (map (expo us (bump us s n v)) us)) by (rewrite map_expo_self by auto; reflexivity). replace (degree_of sel us v) with (degree_of sel us (map (expo us v) us)) by (rewrite map_expo_self by auto; reflexivity). rewrite !degree_wsum.
  transitivity (wsum (fun x => if sel x then expo us v x else 0) us + wsum (fun x => if String.eqb x s then if sel x then n else 0 else 0) us).
  - assert (A : forall f g l, wsum (fun x => f x + g x) l = wsum f l + wsum g l). { intros f g l. unfold wsum, vsum. induction l as [|x l IH]; cbn [map fold_right]; [reflexivity|]. rewrite IH. lia. }
    rewrite <- A. apply wsum_ext. intros z Iz. rewrite expo_bump by exact L. destruct (String.eqb z s) eqn:E; [|lia]. apply String.eqb_eq in E. subst z. destruct (in_dec string_dec s us); [|contradiction]. destruct (sel s); lia.
  - f_equal. assert (G : forall l, NoDup l -> wsum (fun x => if String.eqb x s then if sel x then n else 0 else 0) l = if in_dec string_dec s l then if sel s then n else 0 else 0); [|apply G; exact NU].
    unfold wsum, vsum. induction 1 as [|x l H N IH]; [reflexivity|]. cbn [map fold_right]. rewrite IH. destruct (String.eqb x s) eqn:E.
    + apply String.eqb_eq in E. subst x. destruct (in_dec string_dec s l); [contradiction|]. destruct (in_dec string_dec s (s :: l)) as [_|J]; [lia|]. elim J. left. reflexivity.
    + apply String.eqb_neq in E. destruct (in_dec string_dec s l) as [J|J], (in_dec string_dec s (x :: l)) as [J'|J']; try reflexivity; [elim J'; right; exact J|]. destruct J'; congruence.
Qed.
Theorem diff_low : forall (a : expr) s lim, In s us -> Derivative (Low a (lim + 1)) s ~ Low (Derivative a s) lim.
Proof.
  intros a s lim Is. apply law. cbn [ExprSpec.denotes]. unfold f_low, f_diff. rewrite filter_map_comm. f_equal. apply filter_ext_in. intros [v c] I. cbn [fst snd]. pose proof (denotes_len KS CO cz pw us a _ I) as L. cbn [fst] in L.
  rewrite degree_bump by exact L. destruct (in_dec string_dec s us); [|contradiction]. unfold all_symbols. apply Bool.eq_true_iff_eq. rewrite !Z.leb_le. lia.
Qed.
Theorem diff_low_in : forall (a : expr) s lim syms, In s us -> Derivative (LowIn a (if one_of syms s then lim + 1 else lim) syms) s ~ LowIn (Derivative a s) lim syms.
Proof.
  intros a s lim syms Is. apply law. cbn [ExprSpec.denotes]. unfold f_low, f_diff. rewrite filter_map_comm. f_equal. apply filter_ext_in. intros [v c] I. cbn [fst snd]. pose proof (denotes_len KS CO cz pw us a _ I) as L. cbn [fst] in L.
  rewrite degree_bump by exact L. destruct (in_dec string_dec s us); [|contradiction]. apply Bool.eq_true_iff_eq. destruct (one_of syms s); rewrite !Z.leb_le; lia.
Qed.

(** C107. Results that compare equal come from interchangeable programs. *)
Theorem equal_results_interchangeable : forall e e' r r', proper us e -> proper us e' -> computes e r -> computes e' r' -> tags_equal TO (s_tag r) (s_tag r') -> series_equal_to KO CO PO TO r r' = Ok true -> e ~ e'.
Proof.
  intros e e' r r' P P' H H' TG E. destruct (programs_equal KO KS CO PO TO KL CL cz CZ vpow pw tV tD HT DI us SU BU ZF e e' r r' P P' H H') as [_ B]. apply ic_law. intros ws. apply (proj1 (B true E TG) eq_refl).
Qed.
(** C107. The conditions on exponents and degrees hold for sums, products and powers of objects with such exponents. *)
Theorem arithmetic_exponents : forall (Ex : Z -> Prop) (e : expr), Ex 0 -> (forall a b, Ex a -> Ex b -> Ex (a + b)) -> arithmetic e -> objects_in KS Ex e -> exponents KS CO cz pw us Ex e.
Proof. intros Ex e E0 EA A O t I. exact (denotes_in KS CO cz pw 0c 1c (c_add CO) (c_mul CO) (c_sub CO) (c_neg CO) (cl_ring _ CL) (fun c => c) eq_refl eq_refl Ex us E0 EA e A O t I). Qed.
Theorem exponents_nonnegative : forall (e : expr) sel, exponents KS CO cz pw us (fun n => 0 <= n) e -> nonnegative KS CO cz pw us sel e.
Proof.
  intros e sel H t I. specialize (H t I). pose proof (denotes_len KS CO cz pw us e t I) as L. rewrite <- (map_expo_self us (fst t) NU L), degree_wsum. unfold wsum.
  assert (X : forall l, 0 <= vsum (map (fun x => if sel x then expo us (fst t) x else 0) l)); [|apply X]. induction l as [|z l IH]; [cbn; lia|]. unfold vsum in *. cbn [map fold_right].
  assert (0 <= expo us (fst t) z) by (apply (expo_in (fun n => 0 <= n)); [lia|exact H]). destruct (sel z); lia.
Qed.
End PL.

Print Assumptions interchangeable_equal.
Print Assumptions equal_interchangeable.
Print Assumptions equal_results_interchangeable.
Print Assumptions presentation_laws.
Print Assumptions subs_sum.
Print Assumptions subs_product.
Print Assumptions subs_power.
Print Assumptions subs_twice.
Print Assumptions subs_none.
Print Assumptions subs_number.
Print Assumptions subs_diff.
Print Assumptions diff_sum.
Print Assumptions diff_product.
Print Assumptions program_diff_commute.
Print Assumptions low_sum.
Print Assumptions low_in_sum.
Print Assumptions low_low.
Print Assumptions low_in_low_in.
Print Assumptions low_product.
Print Assumptions low_in_product.
Print Assumptions low_power.
Print Assumptions low_in_power.
Print Assumptions low_in_subs.
Print Assumptions diff_low.
Print Assumptions diff_low_in.
Print Assumptions arithmetic_exponents.
Print Assumptions exponents_nonnegative.

(** * Non-vacuity: with x = 3 a b^2 - 2 a + 7 b, subs(x * pow(x, 2), a = 5) and subs(x, a = 5) * pow(subs(x, a = 5), 2) are interchangeable and run, and so are the truncations of x * x and of the product of
    the truncations; (x + 1) * (x - 1) and pow(x, 2) - 1 (P_Expr.v), which compare equal, are interchangeable, also after differentiation. *)
Notation "a ~ b" := (interchangeable exS Z_cf (fun z => z) Z.pow ["a"; "b"; "c"]%string a b) (at level 70).
Lemma ex_packable : packable kd_int64. Proof. right. right. left. reflexivity. Qed.
Definition ex_sm : symbol_map Z := [("a", 5)]%string.
Definition ex_la : @expr Z Z Z := Substitute (Product eX (Power eX 2)) ex_sm.
Definition ex_lb : @expr Z Z Z := Product (Substitute eX ex_sm) (Power (Substitute eX ex_sm) 2).
Definition ex_lc : @expr Z Z Z := Low (Product eX eX) 1.
Definition ex_ld : @expr Z Z Z := Low (Product (Low eX 1) (Low eX 1)) 1.
Definition ex_x3 := get dS (poly_mul exK Z_cf exP Z_tag (exE true 1) ex_x ex_p2).
Definition ex_ra := get dS (subs_scalar exK Z_cf exP Z_tag ex_vpow ex_x3 ex_sm).
Definition ex_sx := get dS (subs_scalar exK Z_cf exP Z_tag ex_vpow ex_x ex_sm).
Definition ex_sp := get dS (fst (ex_pow true 1 2 [] ex_sx)).
Definition ex_rb := get dS (poly_mul exK Z_cf exP Z_tag (exE true 1) ex_sx ex_sp).
Definition ex_d1 := get dS (poly_diff exK Z_cf exP Z_tag (fun z => z) ex_r1 "b"%string).
Definition ex_d2 := get dS (poly_diff exK Z_cf exP Z_tag (fun z => z) ex_r2 "b"%string).
Lemma ex_runs_la : runs ex_la ex_ra.
Proof.
  apply (run_substitute _ _ _ _ _ _ _ _ _ _ _ _ ex_x3); [|intros z v k c _ _ _; reflexivity|vm_compute; reflexivity].
  apply (run_product _ _ _ _ _ _ _ _ _ _ (exE true 1) _ _ ex_x ex_p2); [constructor|apply ex_runs_p2|apply exE_ok|vm_compute; reflexivity].
Qed.
Lemma ex_runs_sx : runs (Substitute eX ex_sm) ex_sx.
Proof. apply (run_substitute _ _ _ _ _ _ _ _ _ _ _ _ ex_x); [constructor|intros z v k c _ _ _; reflexivity|vm_compute; reflexivity]. Qed.
Lemma ex_runs_lb : runs ex_lb ex_rb.
Proof.
  apply (run_product _ _ _ _ _ _ _ _ _ _ (exE true 1) _ _ ex_sx ex_sp); [apply ex_runs_sx| |apply exE_ok|vm_compute; reflexivity].
  apply (run_power _ _ _ _ _ _ _ _ _ _ [] (exE true 1) (fun c => Ok (cpower Z_cf c 2)) _ 2 ex_sx); [apply ex_runs_sx|constructor|apply exE_ok|reflexivity|vm_compute; reflexivity].
Qed.
Lemma ex_powers : pow_adds Z.mul Z.pow nonneg ex_sm.
Proof. split; [unfold nonneg; lia|]. intros z v p q _ Hp Hq. apply Z.pow_add_r; assumption. Qed.
Example ex_laws : let us := ["a"; "b"; "c"]%string in
  ex_la ~ ex_lb /\ ex_lc ~ ex_ld /\ ex_e1 ~ ex_e2 /\ Derivative ex_e1 "b"%string ~ Derivative ex_e2 "b"%string /\ Given ex_r1 ~ Given ex_r2 /\
  proper exK exS Z_cf Z.pow us ex_la /\ proper exK exS Z_cf Z.pow us ex_lb /\ runs ex_la ex_ra /\ runs ex_lb ex_rb /\ series_size ex_ra = 7%nat /\ series_equal_to exK Z_cf exP Z_tag ex_ra ex_rb = Ok true /\
  series_size ex_d1 = 5%nat /\ series_equal_to exK Z_cf exP Z_tag ex_d1 ex_d2 = Ok true.
Proof.
  intros us. destruct ex_programs as (SU & BU & ZF & P1 & P2 & P3 & R1 & R2 & R3 & EQ & _). fold us in SU, BU, ZF, P1, P2, P3.
  assert (NN : forall e : @expr Z Z Z, arithmetic e -> objects_in exS nonneg e -> exponents exS Z_cf (fun z => z) Z.pow us nonneg e) by (intros e A O; apply arithmetic_exponents; [exact Z_cf_laws|unfold nonneg; lia|unfold nonneg; intros; lia|exact A|exact O]).
  assert (AX : objects_in exS nonneg eX) by apply ex_x_expos.
  assert (PX : proper exK exS Z_cf Z.pow us eX) by apply P2.
  pose proof (NN eX I AX) as NX. pose proof (NN (Power eX 2) I AX) as NP.
  assert (L1 : ex_la ~ ex_lb).
  { eapply ic_trans; [apply (subs_product exS Z_cf Z_cf_laws (fun z => z) ex_vpow Z.pow us SU nonneg); [repeat constructor|exact ex_powers|exact NX|exact NP]|].
    apply ic_product; [apply ic_law; intros ws; reflexivity|]. apply (subs_power exS Z_cf Z_cf_laws (fun z => z) ex_vpow Z.pow us SU nonneg); [repeat constructor|intros z v _; reflexivity|exact ex_powers|unfold nonneg; lia|exact NX]. }
  assert (EE : ex_e1 ~ ex_e2) by (apply (equal_results_interchangeable exK exS Z_cf exP Z_tag exK_laws Z_cf_laws (fun z => z) Z_embedding ex_vpow Z.pow int32 exT (proj1 (kd_type_ok kd_int64 ex_packable)) (pm_degrees_in kd_int64 ex_packable) us SU BU ZF ex_e1 ex_e2 ex_r1 ex_r2 P1 P2 R1 R2 eq_refl EQ)).
  assert (P0 : pow0 1 Z.pow ex_sm) by (intros z v _; reflexivity).
  assert (PA : proper exK exS Z_cf Z.pow us ex_la) by (split; [exact (conj PX PX)|split; [repeat constructor|exact P0]]).
  assert (PB : proper exK exS Z_cf Z.pow us ex_lb) by (split; (split; [exact PX|split; [repeat constructor|exact P0]])).
  destruct (program_exact exK exS Z_cf exP Z_tag exK_laws Z_cf_laws (fun z => z) Z_embedding ex_vpow Z.pow int32 exT (proj1 (kd_type_ok kd_int64 ex_packable)) (pm_degrees_in kd_int64 ex_packable) us SU BU ZF ex_e1 ex_r1 P1 R1) as (W1 & I1 & _).
  destruct (program_exact exK exS Z_cf exP Z_tag exK_laws Z_cf_laws (fun z => z) Z_embedding ex_vpow Z.pow int32 exT (proj1 (kd_type_ok kd_int64 ex_packable)) (pm_degrees_in kd_int64 ex_packable) us SU BU ZF ex_e2 ex_r2 P2 R2) as (W2 & I2 & _).
  split; [exact L1|]. split. { apply low_product; apply exponents_nonnegative; first [exact SU|exact NX]. }
  split; [exact EE|]. split; [apply ic_derivative; exact EE|].
  split; [exact (equal_interchangeable exK exS Z_cf exP Z_tag exK_laws Z_cf_laws (fun z => z) Z.pow us SU BU ex_r1 ex_r2 W1 W2 I1 I2 EQ)|].
  split; [exact PA|]. split; [exact PB|]. split; [exact ex_runs_la|]. split; [exact ex_runs_lb|]. split; [vm_compute; reflexivity|]. split; [vm_compute; reflexivity|]. split; vm_compute; reflexivity.
Qed.
