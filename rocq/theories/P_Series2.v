(** Property C42 (evaluation), and C30, C40, C58, C59: behaviour refuted by concrete series; non-vacuity examples for P_Series.v.
    Vocabulary: EvalSpec.v. *)
From Coq Require Import ZArith List Bool String Arith Sorted Permutation Lia Ring Ring_theory.
From Verif Require Import Base KpackModel KpackSpec KpackProofs P_Kpack IntModel SymModel SymSpec SymProofs P_Sym PMonModel PMonSpec PMonProofs PMonProofs2 P_PMon KeyOps KeyInst
  SeriesModel SeriesModel2 SeriesSpec SeriesProofs SeriesProofs2 SeriesProofs3 SeriesProofs4 SeriesProofs5 SeriesProofs6 Lin EvalSpec SeriesEval SeriesProofs7 CfInst P_Series.
Import ListNotations.
Open Scope Z_scope.
Local Notation len := List.length.

Section Ev.
Context {K C Tag V U : Type} (KO : key_ops K) (KS : key_sem K) (CO : cf_ops C) (PO : tbl_policy (K * C)) (TO : tag_ops Tag).
Context (KL : key_laws KO KS) (CL : cf_laws CO).
Context (vzero vone : V) (vadd vmul vsub : V -> V -> V) (vopp : V -> V) (VR : ring_theory vzero vone vadd vmul vsub vopp (@eq V)).
Context (vpow : U -> Z -> res V) (pw : U -> Z -> V) (ceval : C -> res V) (h : C -> V).
Context (HC : forall c, ceval c = Ok (h c)) (h0 : h (c_zero CO) = vzero) (h1 : forall a b, h (c_add CO a b) = vadd (h a) (h b)).
Notation series := (series K C Tag).
Notation WF := (wf KO KS CO).
Notation evaluate := (series_evaluate KO vzero vone vadd vmul vpow ceval).
Notation value := (value KS vzero vone vadd vmul pw h).

(** C42. The result is the value of the polynomial; invalid_argument iff some symbol has no value. *)
Theorem evaluate_exact : forall (m : symbol_map U) (s : series), WF s -> sorted_set (map fst m) ->
  (~ incl (s_ss s) (map fst m) -> evaluate s m = Throw invalid_argument) /\
  (incl (s_ss s) (map fst m) -> powers_exist KS vpow pw m s -> evaluate s m = Ok (value m s)).
Proof. intros m s W Hm. apply (evaluate_ok KO KS CO KL vzero vone vadd vmul vsub vopp VR vpow pw ceval h HC h0 m s W Hm). Qed.

(** C42. Equal polynomials have equal values. *)
Theorem evaluate_respects_equality : forall (m : symbol_map U) (x y : series), WF x -> WF y -> sorted_set (map fst m) -> pow0 vone pw m ->
  Z.of_nat (len (s_ss x) + len (s_ss y)) <= imax size_t ->
  series_equal_to KO CO PO TO x y = Ok true -> value m x = value m y.
Proof.
  intros m x y Wx Wy Hm P0 B E.
  destruct (equal_ok KO KS CO PO TO KL CL x y Wx Wy B) as [(b & E' & I)|[[?|?] _]]; try congruence.
  assert (b = true) by congruence. subst b. destruct (proj1 I eq_refl) as [_ H].
  destruct (merge_symbol_sets_exact (s_ss x) (s_ss y) (wf_ss _ _ _ _ Wx) (wf_ss _ _ _ _ Wy) B) as (u & _ & _ & _ & Su & Iu & _).
  apply (value_ext KO KS CO vzero vone vadd vmul vsub vopp VR vpow pw h h0 h1 m u x y); auto.
  - split; auto. intros z J; apply Iu; auto.
  - split; auto. intros z J; apply Iu; auto.
Qed.

(** C42. Evaluation is additive: if x + y (x - y) exists and x and y can be evaluated, so can the result, and its value is the
    sum (difference) of the values. *)
Theorem evaluate_additive : forall (m : symbol_map U) (sign : bool) (x y r : series), WF x -> WF y -> sorted_set (map fst m) ->
  Z.of_nat (len (s_ss x) + len (s_ss y)) <= imax size_t ->
  incl (s_ss x) (map fst m) -> incl (s_ss y) (map fst m) ->
  powers_exist KS vpow pw m x -> powers_exist KS vpow pw m y -> pow0 vone pw m -> (forall z v, In (z, v) m -> vpow v 0 = Ok vone) ->
  (if sign then series_add KO CO PO TO x y else series_sub KO CO PO TO x y) = Ok r ->
  exists a b, evaluate x m = Ok a /\ evaluate y m = Ok b /\ evaluate r m = Ok (if sign then vadd a b else vsub a b).
Proof.
  intros m sign x y r Wx Wy Hm B Ix Iy Px Py P0 V0 E.
  assert (A := add_sub_exact KO KS CO PO TO KL CL sign x y Wx Wy B). cbv zeta in A. rewrite E in A.
  destruct A as [(? & [= <-] & Wr & [Su UU] & _ & _ & D)|[[?|?] _]]; try discriminate.
  exists (value m x), (value m y). split; [apply evaluate_exact; auto|]. split; [apply evaluate_exact; auto|].
  assert (Cx : covers (s_ss r) x) by (split; auto; intros z J; apply UU; auto).
  assert (Cy : covers (s_ss r) y) by (split; auto; intros z J; apply UU; auto).
  assert (Cr : covers (s_ss r) r) by (split; auto; apply incl_refl).
  assert (Ir : incl (s_ss r) (map fst m)) by (intros z J; apply UU in J as [J|J]; auto).
  assert (Pr : powers_exist KS vpow pw m r).
  { intros z v k c J1 J2 J3. assert (NZ : coef KS CO (s_ss r) r (spread (s_ss r) (s_ss r) (ks_exps KS (len (s_ss r)) k)) <> c_zero CO)
      by (apply (coef_nonzero KO KS CO KL CL); eauto).
    assert (LK : len (ks_exps KS (len (s_ss r)) k) = len (s_ss r)) by (apply (kl_len _ _ KL); eapply wf_valid; eauto).
    rewrite spread_self in NZ; auto; [|apply sorted_set_nodup; auto].
    assert (OR : coef KS CO (s_ss r) x (ks_exps KS (len (s_ss r)) k) <> c_zero CO \/ coef KS CO (s_ss r) y (ks_exps KS (len (s_ss r)) k) <> c_zero CO).
    { rewrite D in NZ. set (a := coef KS CO (s_ss r) x _) in *. set (b := coef KS CO (s_ss r) y _) in *.
      assert (Z1 := cl_zero _ CL a). assert (Z2 := cl_zero _ CL b). destruct (c_is_zero CO a) eqn:Ea; [|left; intros H; apply Z1 in H; discriminate].
      destruct (c_is_zero CO b) eqn:Eb; [|right; intros H; apply Z2 in H; discriminate]. exfalso. apply NZ.
      rewrite (proj1 Z1 eq_refl), (proj1 Z2 eq_refl). assert (R := cl_ring _ CL). destruct sign; [|rewrite (Rsub_def R)]; rewrite (Radd_0_l R); auto.
      rewrite <- (Ropp_def R (c_zero CO)) at 2. rewrite (Radd_0_l R). reflexivity. }
    assert (G : forall s : series, WF s -> covers (s_ss r) s -> powers_exist KS vpow pw m s -> coef KS CO (s_ss r) s (ks_exps KS (len (s_ss r)) k) <> c_zero CO ->
      vpow v (expo (s_ss r) (ks_exps KS (len (s_ss r)) k) z) = Ok (pw v (expo (s_ss r) (ks_exps KS (len (s_ss r)) k) z))).
    { intros s Ws Cs Ps N. apply (coef_nonzero KO KS CO KL CL) in N as (k' & c' & I' & <-); auto.
      unfold spread. rewrite expo_map. destruct (in_dec string_dec z (s_ss r)); [|contradiction].
      destruct (in_dec string_dec z (s_ss s)) as [J|J]; [eapply Ps; eauto|]. rewrite expo_notin by exact J. rewrite (P0 _ _ J1). eapply V0; eauto. }
    destruct OR as [N|N]; [eapply (G x)|eapply (G y)]; eauto. }
  rewrite (proj2 (evaluate_exact m r Wr Hm) Ir Pr). f_equal.
  rewrite (value_sum KO KS CO CL vzero vone vadd vmul vsub vopp VR vpow pw h h0 h1 m (s_ss r) sign r x y); auto.
  - destruct sign; auto. symmetry. apply (Rsub_def VR).
  - intros ws. rewrite D. unfold sg. destruct sign; auto. apply (Rsub_def (cl_ring _ CL)).
Qed.
End Ev.

(** * Non-vacuity: concrete series of packed monomials with 64-bit signed exponents and integer coefficients. *)
Definition exK := pm_ops kd_int64.
Definition exS := pm_sem kd_int64.
Definition exP := po_rev (Z * Z).
(** The monomial with the given exponents, and a series with the given number of segments built by [add_term]. *)
Definition exk (vs : list Z) : Z := kron (delta kd_int64 (len vs)) vs.
Definition exs (tg : Z) (ss : symbol_set) (l2 : nat) (l : list (list Z * Z)) : res (series Z Z Z) :=
  s <- set_n_segments (Series [[]] 0 tg ss) l2 ;;
  rfold (fun s e => add_term exK Z_cf exP true s (exk (fst e)) (snd e)) l s.

Lemma exK_laws : key_laws exK exS.
Proof. apply pm_key_laws. right. right. left. reflexivity. Qed.

Lemma exs_wf tg ss l2 l s : sorted_set ss -> (l2 <= 63)%nat ->
  forallb (fun e => representsb kd_int64 (len ss) (exk (fst e)) (fst e)) l = true ->
  exs tg ss l2 l = Ok s -> wf exK exS Z_cf s /\ s_ss s = ss /\ s_log2 s = l2 /\ s_tag s = tg.
Proof.
  intros S L F E. unfold exs in E.
  destruct (set_n_segments_ok exK exS Z_cf (Series [[]] 0 tg ss) l2 L S) as [E0 W0]. cbn [s_tag s_ss] in *. rewrite E0 in E. cbn [bind] in E.
  destruct (add_terms_ok exK exS Z_cf exP exK_laws Z_cf_laws (fun c : Z => c) true true true true false (map (fun e => (exk (fst e), snd e)) l) _ W0) as [(s' & E' & W' & ((M1 & M2 & M3) & _))|(E' & _)];
    try discriminate; auto.
  - intros k c I. apply in_map_iff in I as (e & [= <- <-] & I). rewrite forallb_forall in F. apply F in I. apply representsb_ok in I. exists (fst e). exact I.
  - intros [?|?]; discriminate.
  - assert (Q : forall l (s0 : series Z Z Z), rfold (fun s e => add_term exK Z_cf exP true s (exk (fst e)) (snd e)) l s0 =
      add_terms exK Z_cf exP true true true true false (fun c : Z => c) (map (fun e => (exk (fst e), snd e)) l) s0).
    { clear. induction l; intros; [reflexivity|]. unfold add_terms in *. cbn [map rfold fst snd]. unfold add_term at 1. destruct (series_add_term _ _ _ _ _ _ _ _ _ _ _); cbn [bind]; auto. }
    rewrite Q in E. assert (s = s') by congruence. subst. cbn in M1, M2, M3. auto.
  - assert (Q : forall l (s0 : series Z Z Z), rfold (fun s e => add_term exK Z_cf exP true s (exk (fst e)) (snd e)) l s0 =
      add_terms exK Z_cf exP true true true true false (fun c : Z => c) (map (fun e => (exk (fst e), snd e)) l) s0).
    { clear. induction l; intros; [reflexivity|]. unfold add_terms in *. cbn [map rfold fst snd]. unfold add_term at 1. destruct (series_add_term _ _ _ _ _ _ _ _ _ _ _); cbn [bind]; auto. }
    rewrite Q in E. congruence.
Qed.

Definition get {A : Type} (d : A) (r : res A) : A := match r with Ok a => a | _ => d end.
Definition d0 : series Z Z Z := series_default Z_tag.
(** 3 a b^2 - 2 a + 7 b, in four segments; 5 b + 2 c^3 - 7 b^-1, in one; the first again in one segment. *)
Definition ex_x : series Z Z Z := get d0 (exs 0 ["a"; "b"]%string 2 [([1; 2], 3); ([1; 0], -1); ([0; 1], 7); ([1; 0], -1)]).
Definition ex_y : series Z Z Z := get d0 (exs 0 ["b"; "c"]%string 0 [([1; 0], 5); ([0; 3], 2); ([-1; 0], -7)]).
Definition ex_x' : series Z Z Z := get d0 (exs 0 ["a"; "b"]%string 0 [([0; 1], 7); ([1; 0], -2); ([1; 2], 3)]).

Example ex_x_wf : wf exK exS Z_cf ex_x /\ s_ss ex_x = ["a"; "b"]%string /\ s_log2 ex_x = 2%nat /\ s_tag ex_x = 0.
Proof. apply (exs_wf 0 ["a"; "b"]%string 2 [([1; 2], 3); ([1; 0], -1); ([0; 1], 7); ([1; 0], -1)]); [repeat constructor|lia|vm_compute; reflexivity|vm_compute; reflexivity]. Qed.
Example ex_y_wf : wf exK exS Z_cf ex_y /\ s_ss ex_y = ["b"; "c"]%string /\ s_log2 ex_y = 0%nat /\ s_tag ex_y = 0.
Proof. apply (exs_wf 0 ["b"; "c"]%string 0 [([1; 0], 5); ([0; 3], 2); ([-1; 0], -7)]); [repeat constructor|lia|vm_compute; reflexivity|vm_compute; reflexivity]. Qed.
Example ex_x'_wf : wf exK exS Z_cf ex_x' /\ s_ss ex_x' = ["a"; "b"]%string /\ s_log2 ex_x' = 0%nat /\ s_tag ex_x' = 0.
Proof. apply (exs_wf 0 ["a"; "b"]%string 0 [([0; 1], 7); ([1; 0], -2); ([1; 2], 3)]); [repeat constructor|lia|vm_compute; reflexivity|vm_compute; reflexivity]. Qed.

(** The hypotheses of the theorems of P_Series.v hold for these series, and the results are what they say. *)
Example ex_add : exists r, series_add exK Z_cf exP Z_tag ex_x ex_y = Ok r /\ s_ss r = ["a"; "b"; "c"]%string /\ series_size r = 5%nat /\
  coef exS Z_cf ["a"; "b"; "c"]%string r [0; 1; 0] = 12 /\ coef exS Z_cf ["a"; "b"; "c"]%string r [0; -1; 0] = -7 /\
  coef exS Z_cf ["a"; "b"; "c"]%string r [1; 2; 0] = 3.
Proof. eexists. split; [vm_compute; reflexivity|]. repeat split; vm_compute; reflexivity. Qed.

Example ex_other :
  Z.of_nat (len (s_ss ex_x) + len (s_ss ex_y)) <= imax size_t /\
  resegmented ex_x ex_x' /\ s_log2 ex_x <> s_log2 ex_x' /\
  series_equal_to exK Z_cf exP Z_tag ex_x ex_x' = Ok true /\ series_equal_to exK Z_cf exP Z_tag ex_x ex_y = Ok false /\
  series_degree exK ex_x = Ok 3 /\ series_p_degree exK ex_x ["a"; "z"]%string = Ok 1 /\
  series_size (series_scalar_mul exK Z_cf ex_x 0) = 0%nat /\
  (exists r, series_in_place_addsub exK Z_cf exP Z_cf exP Z_tag false (fun c => c) ex_x true ex_x = Ok r /\ series_size r = 0%nat) /\
  (exists r, add_symbols exK Z_cf exP Z_tag ex_x ["aa"]%string = Ok r /\ s_ss r = ["a"; "aa"; "b"]%string /\
     exists q, series_trim exK Z_cf exP Z_tag r = Ok q /\ s_ss q = ["a"; "b"]%string) /\
  (series_to_cf exK 0 (fun c => c) ex_x = Throw invalid_argument) /\
  add_term exK Z_cf exP true ex_x (2 ^ 62) 1 = Throw invalid_argument.
Proof.
  split; [vm_compute; discriminate|]. split.
  { split; [vm_compute; reflexivity|]. split; [vm_compute; reflexivity|]. 
    apply NoDup_Permutation; [apply (NoDup_map_inv fst), (wf_keys _ _ _ _ (proj1 ex_x'_wf))|apply (NoDup_map_inv fst), (wf_keys _ _ _ _ (proj1 ex_x_wf))|].
    intros e. vm_compute. tauto. }
  split; [vm_compute; discriminate|]. do 5 (split; [vm_compute; reflexivity|]).
  split; [eexists; split; vm_compute; reflexivity|].
  split; [eexists; split; [vm_compute; reflexivity|]; split; [vm_compute; reflexivity|]; eexists; split; vm_compute; reflexivity|].
  split; vm_compute; reflexivity.
Qed.

(** Two dereferenceable iterators of one series (the hypotheses of [iterator_equality]) that refer to different terms. *)
Example ex_iterators : exists it k c k' c', it_increment ex_x (series_begin ex_x) = Ok it /\
  it_deref ex_x (series_begin ex_x) = Ok (k, c) /\ it_deref ex_x it = Ok (k', c') /\ k <> k' /\
  it_eqb (series_begin ex_x) it = false /\ it_eqb it it = true.
Proof.
  do 5 eexists. split; [vm_compute; reflexivity|]. split; [vm_compute; reflexivity|]. split; [vm_compute; reflexivity|].
  split; [vm_compute; discriminate|]. split; vm_compute; reflexivity.
Qed.

(** Evaluation at a = 2, b = -1 (a map with an unused name): 3*2*1 - 2*2 - 7 = -5. *)
Example ex_evaluate :
  let vpow v e := if e <? 0 then Throw domain_error else Ok (v ^ e) in
  let m := [("a", 2); ("b", -1); ("z", 100)]%string in
  sorted_set (map fst m) /\ incl (s_ss ex_x) (map fst m) /\ powers_exist exS vpow Z.pow m ex_x /\ pow0 1 Z.pow m /\
  series_evaluate exK 0 1 Z.add Z.mul vpow (fun c => Ok c) ex_x m = Ok (-5) /\
  series_evaluate exK 0 1 Z.add Z.mul vpow (fun c => Ok c) ex_x [("a", 2)]%string = Throw invalid_argument.
Proof.
  cbv zeta. split; [repeat constructor|]. split; [rewrite (proj1 (proj2 ex_x_wf)); intros z [<-|[<-|[]]]; cbn; auto|]. split.
  { intros z v k c I1 I2 I3. vm_compute in I2. destruct I2 as [[= <- <-]|[[= <- <-]|[[= <- <-]|[]]]]; cbn in I1; destruct I1 as [[= <- <-]|[[= <- <-]|[[= <- <-]|[]]]]; vm_compute; reflexivity. }
  split; [intros z v _; reflexivity|]. split; vm_compute; reflexivity.
Qed.

(** * Refuted properties *)

(** C40, last clause: trimming does not keep the number of segments ([retval.set_n_segments(retval.get_s_size())], series.hpp:4158, uses the new series
    where x is meant). *)
Theorem trim_segments_refuted : exists x r, wf exK exS Z_cf x /\ series_trim exK Z_cf exP Z_tag x = Ok r /\ s_log2 x = 2%nat /\ s_log2 r = 0%nat.
Proof.
  destruct (trim_ok exK exS Z_cf exP Z_tag exK_laws Z_cf_laws ex_x (proj1 ex_x_wf)) as (r & E & _ & _ & _ & L & _).
  exists ex_x, r. split; [apply ex_x_wf|]. split; [exact E|]. split; [apply ex_x_wf|exact L].
Qed.
Print Assumptions trim_segments_refuted.

(** C58. Two series with the same tag whose symbol sets differ: the sum has a default-constructed tag. *)
Definition ex_t1 : series Z Z Z := get d0 (exs 42 ["a"]%string 0 [([1], 1)]).
Definition ex_t2 : series Z Z Z := get d0 (exs 42 ["b"]%string 0 [([1], 1)]).
Theorem add_keeps_tag_refuted : exists x y r, wf exK exS Z_cf x /\ wf exK exS Z_cf y /\
  series_add exK Z_cf exP Z_tag x y = Ok r /\ s_tag x = 42 /\ s_tag y = 42 /\ s_tag r = 0.
Proof.
  exists ex_t1, ex_t2. destruct (exs_wf 42 ["a"]%string 0 [([1], 1)] ex_t1) as (W1 & _ & _ & T1); [repeat constructor|lia|vm_compute; reflexivity|vm_compute; reflexivity|].
  destruct (exs_wf 42 ["b"]%string 0 [([1], 1)] ex_t2) as (W2 & _ & _ & T2); [repeat constructor|lia|vm_compute; reflexivity|vm_compute; reflexivity|].
  eexists. split; [exact W1|]. split; [exact W2|]. split; [vm_compute; reflexivity|]. split; [exact T1|]. split; [exact T2|reflexivity].
Qed.
Print Assumptions add_keeps_tag_refuted.

(** Over the same symbols the tag survives (that of the operand with more terms, the left one on a tie). *)
Theorem add_keeps_tag_partial : forall (K C Tag : Type) (KO : key_ops K) (KS : key_sem K) (CO : cf_ops C) (PO : tbl_policy (K * C)) (TO : tag_ops Tag),
  key_laws KO KS -> cf_laws CO -> forall (x y r : series K C Tag) (sign : bool), wf KO KS CO x -> wf KO KS CO y ->
  s_ss x = s_ss y -> s_tag x = s_tag y -> Z.of_nat (len (s_ss x) + len (s_ss y)) <= imax size_t ->
  (if sign then series_add KO CO PO TO x y else series_sub KO CO PO TO x y) = Ok r -> s_tag r = s_tag x.
Proof.
  intros K C Tag KO KS CO PO TO KL CL x y r sign Wx Wy S T B E.
  assert (E' : series_addsub KO CO PO TO sign op_same op_same x y = Ok r) by (destruct sign; exact E).
  destruct (addsub_ok KO KS CO PO TO KL CL CO CO sign op_same op_same x y (op_same_ok KO KS CO) (op_same_ok KO KS CO) Wx Wy B)
    as [(r' & E2 & _ & _ & _ & TG & _)|[[?|?] _]]; try congruence.
  assert (r' = r) by congruence. subst. rewrite TG. assert (ss_eqb (s_ss x) (s_ss y) = true) as -> by (apply ss_eqb_iff; exact S).
  destruct (bigger x y); congruence.
Qed.
Print Assumptions add_keeps_tag_partial.

(** C30. Coefficients of the first operand converted to those of the result by a ring homomorphism mapping nonzero values to zero
    (here the integers to the integers modulo 2; in C++, e.g., rationals too small for a double): the sum stores a zero coefficient. *)
Definition F2 : cf_ops bool := {| c_zero := false; c_one := true; c_add := xorb; c_sub := xorb; c_mul := andb; c_fma := fun a b c => xorb a (andb b c); c_neg := fun b => b;
  c_is_zero := negb; c_eqb := Bool.eqb |}.
Lemma F2_laws : cf_laws F2.
Proof.
  constructor; cbn.
  - constructor; intros; repeat match goal with b : bool |- _ => destruct b end; reflexivity.
  - intros []; cbn; split; congruence.
  - intros [] []; cbn; split; congruence.
  - discriminate.
  - reflexivity.
Qed.
Lemma odd_hom : Z.odd 0 = false /\ forall a b, Z.odd (a + b) = xorb (Z.odd a) (Z.odd b).
Proof. split; [reflexivity|]. apply Z.odd_add. Qed.

Definition ex_m1 : series Z Z Z := get d0 (exs 0 ["a"]%string 0 [([1], 2)]).
Definition ex_m2 : series Z bool Z := Series [[(exk [1], true)]] 0 0 ["b"]%string.
Theorem mixed_sum_refuted : exists (x : series Z Z Z) (y r : series Z bool Z) k, wf exK exS Z_cf x /\ wf exK exS F2 y /\
  series_addsub exK F2 (po_rev _) Z_tag true (op_conv exK F2 (po_rev _) Z.odd) op_same x y = Ok r /\ In (k, c_zero F2) (terms r).
Proof.
  exists ex_m1, ex_m2. destruct (exs_wf 0 ["a"]%string 0 [([1], 2)] ex_m1) as (W1 & _); [repeat constructor|lia|vm_compute; reflexivity|vm_compute; reflexivity|].
  eexists. exists (exk [1; 0]). split; [exact W1|]. split.
  { assert (S : sorted_set ["b"]%string) by repeat constructor.
    assert (V : ks_valid exS 1 (exk [1])) by (exists [1]; apply representsb_ok; vm_compute; reflexivity).
    constructor; cbn [s_ss s_log2 s_tables terms ex_m2 List.concat app map fst List.length]; auto.
    - unfold max_log2_size. lia.
    - repeat constructor; auto.
    - intros k c [[= <- <-]|[]]. exact V.
    - intros k c [[= <- <-]|[]]. discriminate.
    - intros [|[|i]] t k c E; cbn in E; inversion E; subst; intros I. cbn. rewrite Z.mod_1_r. reflexivity.
    - congruence. }
  split; [vm_compute; reflexivity|]. vm_compute. auto.
Qed.
Print Assumptions mixed_sum_refuted.

(** C30, the part that holds: if the conversion does not map nonzero coefficients to zero, or the symbol sets coincide, ... *)
Theorem mixed_sum_partial : forall (K C CX Tag : Type) (KO : key_ops K) (KS : key_sem K) (CO : cf_ops C) (COX : cf_ops CX) (PO : tbl_policy (K * C)) (TO : tag_ops Tag),
  key_laws KO KS -> cf_laws CO -> cf_laws COX -> forall (g : CX -> C), g (c_zero COX) = c_zero CO -> (forall a b, g (c_add COX a b) = c_add CO (g a) (g b)) ->
  (forall c, c <> c_zero COX -> g c <> c_zero CO) ->
  forall (x : series K CX Tag) (y r : series K C Tag), wf KO KS COX x -> wf KO KS CO y -> Z.of_nat (len (s_ss x) + len (s_ss y)) <= imax size_t ->
  series_addsub KO CO PO TO true (op_conv KO CO PO g) op_same x y = Ok r ->
  wf KO KS CO r /\ forall us ws, coef KS CO us r ws = c_add CO (g (coef KS COX us x ws)) (coef KS CO us y ws).
Proof.
  intros K C CX Tag KO KS CO COX PO TO KL CL CLX g G0 G1 G2 x y r Wx Wy B E.
  destruct (addsub_ok KO KS CO PO TO KL CL COX CO true (op_conv KO CO PO g) op_same x y (op_conv_ok KO KS CO PO KL CL COX CLX g G0 G1 G2) (op_same_ok KO KS CO) Wx Wy B)
    as [(r' & E2 & W & _ & _ & _ & D & _)|[[?|?] _]]; try congruence.
  assert (r' = r) by congruence. subst. split; [exact W|]. intros us ws. rewrite !coef_nden, D. reflexivity.
Qed.
Print Assumptions mixed_sum_partial.

(** C59. Adding a coefficient to a (well-formed, empty) series over more symbols than the packed monomial supports stores a key incompatible with the
    symbol set. *)
Fixpoint sortedb (l : list string) : bool := match l with [] => true | x :: r => forallb (fun y => String.ltb x y) r && sortedb r end.
Lemma sortedb_ok l : sortedb l = true -> sorted_set l.
Proof.
  induction l as [|x l IH]; cbn; [constructor|]. intros [H1 H2]%andb_prop. constructor; [apply IH, H2|].
  apply Forall_forall. intros y I. apply (proj1 (forallb_forall _ l) H1 y) in I. unfold slt, String.ltb in *. destruct (String.compare x y); congruence.
Qed.
Definition many : symbol_set := map (fun i => String (Ascii.ascii_of_nat (i + 48)) EmptyString) (seq 0 70).
Theorem scalar_add_compatible_refuted : exists (x r : series Z Z Z) k c, wf exK exS Z_cf x /\
  series_addsub_scalar exK Z_cf exP true x 1 = Ok r /\ In (k, c) (terms r) /\ k_compatible exK k (s_ss r) = Ok false.
Proof.
  exists (Series [[]] 0 0 many). eexists. exists 0, 1. split.
  { constructor; cbn [s_ss s_log2 s_tables terms List.concat app map fst List.length]; auto.
    - apply sortedb_ok. vm_compute. reflexivity.
    - unfold max_log2_size. lia.
    - constructor.
    - intros k c [].
    - intros [|[|i]] t k c E; cbn in E; inversion E; subst; intros [].
    - congruence. }
  split; [vm_compute; reflexivity|]. split; vm_compute; auto.
Qed.
Print Assumptions scalar_add_compatible_refuted.
