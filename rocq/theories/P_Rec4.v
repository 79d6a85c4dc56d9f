(** Property C76: evaluation of polynomials with polynomial coefficients.  Vocabulary: RecSpec.v, EvalSpec.v ([value]: the value of a polynomial at a point). *)
From Coq Require Import ZArith List Bool String Arith Lia Permutation Sorted Ring Ring_theory.
From Verif Require Import Base IntModel KpackModel KpackSpec KpackProofs P_Kpack SymSpec SymModel SymProofs P_Sym PMonSpec PMonModel PMonProofs PMonProofs2 P_PMon KeyOps KeyInst SeriesModel SeriesModel2 SeriesSpec PolyModel PolyModel2 PolySpec PolyProofs PolyProofs2
  SeriesProofs SeriesProofs2 SeriesProofs3 SeriesProofs4 SeriesProofs5 SeriesProofs6 SeriesProofs7 Lin EvalSpec SeriesEval CfInst P_Series P_Series2 P_Poly P_Poly2 PolyProofs5 PolyProofs6 PolyProofs7 PolyProofs9 LfSpec LfProofs LfProofs2 LfProofs3 LfProofs4 P_Lf RecModel RecModel4 RecSpec RecProofs P_Rec.
Import ListNotations.
Open Scope Z_scope.
Open Scope res_scope.
Local Notation len := List.length.

Section E.
Context {K Tag KI C TagI V A : Type} (KO : key_ops K) (KS : key_sem K) (TO : tag_ops Tag)
  (KOI : key_ops KI) (KSI : key_sem KI) (CO : cf_ops C) (POI : tbl_policy (KI * C)) (TOI : tag_ops TagI) (EI : mul_env KI C TagI) (PO : tbl_policy (K * res (series KI C TagI))).
Hypothesis KL : key_laws KO KS.
Hypothesis KLI : key_laws KOI KSI.
Hypothesis CL : cf_laws CO.
Notation inner := (series KI C TagI).
Notation outer := (series K (res inner) Tag).
Notation RC := (rec_cf KOI CO POI TOI EI).
Notation RWF := (rwf KO KS RC KOI KSI CO).
Notation coef2 := (coef2 KS KSI CO).
Context (vzero vone : V) (va vm vs_ : V -> V -> V) (vo : V -> V).
Hypothesis VR : ring_theory vzero vone va vm vs_ vo (@eq V).
Add Ring VringE2 : VR.
Context (vpow : A -> Z -> res V) (pw : A -> Z -> V) (ceval : C -> res V) (h : C -> V).
Hypothesis HC : forall c, ceval c = Ok (h c).
Hypothesis h0 : h (c_zero CO) = vzero.
Hypothesis h1 : forall a b, h (c_add CO a b) = va (h a) (h b).
Notation evaluate := (rec_evaluate KO KOI vzero vone va vm vpow ceval).
Notation value := (EvalSpec.value KSI vzero vone va vm pw h).
Notation mono := (mono vone vm pw).
Notation exps x k := (ks_exps KS (len (s_ss x)) k).
Notation names m := (map fst m).

(** The value of a nested polynomial at the point m. *)
Definition value2 (m : symbol_map A) (x : outer) : V :=
  fold_right va vzero (map (fun e => match snd e with Ok q => vm (value m q) (mono m (s_ss x) (exps x (fst e)) (s_ss x)) | _ => vzero end) (terms x)).
(** All the powers needed exist. *)
Definition powers2 (m : symbol_map A) (x : outer) : Prop :=
  powers_exist KS vpow pw m x /\ forall k q, In (k, Ok q) (terms x) -> incl (s_ss q) (names m) -> powers_exist KSI vpow pw m q.

Lemma key_value (m : symbol_map A) (x : outer) si k c : wf KO KS RC x -> sorted_set (names m) -> incl (s_ss x) (names m) -> powers_exist KS vpow pw m x -> si = sm_intersect_idx m (s_ss x) -> In (k, c) (terms x) ->
  k_evaluate KO vone vm vpow k si (s_ss x) = Ok (mono m (s_ss x) (exps x k) (s_ss x)).
Proof.
  intros W Hm I PE ES J. assert (Hs := wf_ss _ _ _ _ W). destruct (intersect_full CO vzero vone va vm vs_ vo VR h h0 m (s_ss x) Hm Hs) as [A0 B]. destruct (B I) as (xs & E & L & H). rewrite ES, E. assert (VK := wf_valid _ _ _ _ W _ _ J). assert (NDs : NoDup (s_ss x)) by (apply sorted_set_nodup; auto).
  rewrite (kl_evaluate _ _ KL V A vone vm vpow pw k (s_ss x) xs VK L).
  - rewrite (mono_combine CO vzero vone va vm vs_ vo VR vpow pw h h0 m (s_ss x) xs (exps x k)); auto; [|apply sorted_set_nodup; auto|apply (kl_len _ _ KL); auto]. f_equal. rewrite (prod_left vzero vone va vm vs_ vo VR). fold (mono m (s_ss x) (exps x k) (s_ss x)). ring.
  - intros v e Ix. apply In_nth_error in Ix as (i & Ei).
    assert (EC : forall (a : list A) (b : list Z) i x e, nth_error (combine a b) i = Some (x, e) -> nth_error a i = Some x /\ nth_error b i = Some e).
    { clear. induction a; intros [|b bs] [|i] x e Ei; cbn in *; try discriminate; [inversion Ei; auto|auto]. }
    apply EC in Ei as [Ex Ee]. assert (Li : (i < len xs)%nat) by (apply nth_error_Some; rewrite Ex; discriminate).
    destruct (nth_error (s_ss x) i) as [z|] eqn:Ez; [|apply nth_error_None in Ez; lia].
    assert (EE := expo_nth _ _ _ _ _ NDs Ez Ee). rewrite <- EE. apply (PE z v k c); eauto using nth_error_In.
Qed.

Section U.
Variable U : symbol_set.

(** C76. The result is the value of the polynomial; invalid_argument if some symbol of a key or of a coefficient has no value. *)
Theorem rec_evaluate_exact : forall (m : symbol_map A) (x : outer), RWF U x -> sorted_set (names m) ->
  (~ incl (s_ss x) (names m) -> evaluate x m = Throw invalid_argument) /\
  (incl (s_ss x) (names m) -> powers2 m x -> (exists k q, In (k, Ok q) (terms x) /\ ~ incl (s_ss q) (names m)) -> evaluate x m = Throw invalid_argument) /\
  (incl (s_ss x) (names m) -> powers2 m x -> (forall k q, In (k, Ok q) (terms x) -> incl (s_ss q) (names m)) -> evaluate x m = Ok (value2 m x)).
Proof.
  intros m x W Hm. pose proof (lw_wf _ _ _ _ (rw_lwf _ _ _ _ _ _ _ _ W)) as W0. destruct (intersect_full CO vzero vone va vm vs_ vo VR h h0 m (s_ss x) Hm (wf_ss _ _ _ _ W0)) as [A0 _]. unfold rec_evaluate, series_evaluate. cbv zeta. split.
  - intros NI. destruct (Nat.eqb_spec (len (sm_intersect_idx m (s_ss x))) (len (s_ss x))); cbn [negb]; auto. exfalso. apply NI, A0; auto.
  - assert (INN : forall k q, In (k, Ok q) (terms x) -> wf KOI KSI CO q). { intros k q J. destruct (rw_inner _ _ _ _ _ _ _ _ W k _ J) as (q' & [= <-] & WQ & _). exact WQ. }
    match goal with |- context [rfold ?f _ _] => set (step := f) end.
    assert (STEP : forall k q acc, incl (s_ss x) (names m) -> powers2 m x -> In (k, Ok q) (terms x) ->
       step acc (k, Ok q) = if list_eq_dec string_dec (filter (fun z => negb (existsb (String.eqb z) (names m))) (s_ss q)) [] then Ok (va acc (vm (value m q) (mono m (s_ss x) (exps x k) (s_ss x)))) else Throw invalid_argument).
    { intros k q acc I [P1 P2] J. unfold step. cbn [fst snd]. rewrite (key_value m x _ k (Ok q) W0 Hm I P1 eq_refl J). cbn [bind cf_evaluate].
      destruct (evaluate_exact KOI KSI CO KLI vzero vone va vm vs_ vo VR vpow pw ceval h HC h0 m q (INN k q J) Hm) as [E1 E2].
      assert (IFF : filter (fun z => negb (existsb (String.eqb z) (names m))) (s_ss q) = [] <-> incl (s_ss q) (names m)).
      { split.
        - intros F z Iz. destruct (existsb (String.eqb z) (names m)) eqn:EX; [apply existsb_exists in EX as (y & Iy & EY); apply String.eqb_eq in EY; subst; exact Iy|]. assert (X : In z []) by (rewrite <- F; apply filter_In; split; [exact Iz|rewrite EX; reflexivity]). destruct X.
        - intros F. destruct (filter _ (s_ss q)) as [|z l] eqn:EF; [reflexivity|]. assert (X : In z (z :: l)) by (left; reflexivity). rewrite <- EF in X. apply filter_In in X as [Iz NZ]. apply F in Iz. exfalso. assert (Y : existsb (String.eqb z) (names m) = true) by (apply existsb_exists; exists z; split; [exact Iz|apply String.eqb_refl]). rewrite Y in NZ. discriminate. }
      destruct (list_eq_dec _ _ _) as [F|F].
      - apply IFF in F. rewrite (E2 F (P2 k q J F)). cbn [bind]. f_equal. ring.
      - rewrite E1 by (intros F'; apply F, IFF; exact F'). reflexivity. }
    split.
    + intros I P (k & q & J & NI). rewrite (proj2 A0 I), Nat.eqb_refl. cbn [negb].
      assert (G : forall l acc, incl l (terms x) -> In (k, Ok q) l -> rfold step l acc = Throw invalid_argument).
      { induction l as [|[k0 c0] l IH]; intros acc IL JL; [destruct JL|]. cbn [rfold]. assert (J0 : In (k0, c0) (terms x)) by (apply IL; left; reflexivity). destruct (rw_inner _ _ _ _ _ _ _ _ W k0 _ J0) as (q0 & -> & _). rewrite STEP by auto.
        destruct (list_eq_dec _ _ _) as [F|F]; [|reflexivity]. cbn [bind]. apply IH; [intros e Ie; apply IL; right; exact Ie|]. destruct JL as [JL|JL]; [|exact JL]. exfalso. assert (q0 = q) by congruence. subst q0. apply NI. intros z Iz.
        destruct (existsb (String.eqb z) (names m)) eqn:EX; [apply existsb_exists in EX as (y & Iy & EY); apply String.eqb_eq in EY; subst; exact Iy|]. assert (X : In z []) by (rewrite <- F; apply filter_In; split; [exact Iz|rewrite EX; reflexivity]). destruct X. }
      apply G; [apply incl_refl|exact J].
    + intros I P AL. rewrite (proj2 A0 I), Nat.eqb_refl. cbn [negb]. unfold value2.
      assert (G : forall l acc, incl l (terms x) -> rfold step l acc = Ok (va acc (fold_right va vzero (map (fun e => match snd e with Ok q => vm (value m q) (mono m (s_ss x) (exps x (fst e)) (s_ss x)) | _ => vzero end) l)))).
      { induction l as [|[k0 c0] l IH]; intros acc IL; [cbn; f_equal; ring|]. cbn [rfold]. assert (J0 : In (k0, c0) (terms x)) by (apply IL; left; reflexivity). destruct (rw_inner _ _ _ _ _ _ _ _ W k0 _ J0) as (q0 & -> & _). rewrite STEP by auto.
        destruct (list_eq_dec _ _ _) as [F|F].
        - cbn [bind map fold_right fst snd]. rewrite IH by (intros e Ie; apply IL; right; exact Ie). f_equal. ring.
        - exfalso. apply F. pose proof (AL k0 q0 J0) as IQ. destruct (filter _ (s_ss q0)) as [|z l0] eqn:EF; [reflexivity|]. assert (X : In z (z :: l0)) by (left; reflexivity). rewrite <- EF in X. apply filter_In in X as [Iz NZ]. apply IQ in Iz. assert (Y : existsb (String.eqb z) (names m) = true) by (apply existsb_exists; exists z; split; [exact Iz|apply String.eqb_refl]). rewrite Y in NZ. discriminate. }
      rewrite G by apply incl_refl. f_equal. ring.
Qed.
(** * The value is a ring homomorphism *)
Notation flat := (flat KS KSI).
Notation LIN := (lin vzero va vm h).
Definition weight (m : symbol_map A) (us vs : symbol_set) (p : list Z * list Z) : V := vm (mono m us (fst p) us) (mono m vs (snd p) vs).
Lemma pdec (a b : list Z * list Z) : {a = b} + {a <> b}.
Proof. decide equality; apply (list_eq_dec Z.eq_dec). Qed.
Lemma coef2_psum us vs (x : outer) a : coef2 us vs x (fst a) (snd a) = psum CO (fun p => eqb pdec p a) (flat us vs x).
Proof.
  unfold RecSpec.coef2, psum. f_equal. f_equal. apply filter_ext. intros [[ws ts] c]. cbn [fst snd]. unfold eqb. destruct a as [wa ta]. cbn [fst snd]. unfold vec_eqb. destruct (list_eq_dec _ ws wa), (list_eq_dec _ ts ta), (pdec (ws, ts) (wa, ta)); try congruence; reflexivity.
Qed.
Lemma value2_lin (m : symbol_map A) us vs (x : outer) : RWF U x -> sorted_set us -> incl (s_ss x) us -> sorted_set vs -> incl U vs -> sorted_set (names m) -> pow0 vone pw m -> value2 m x = LIN (weight m us vs) (flat us vs x).
Proof.
  intros W SU IU SV IV Hm P0. pose proof (lw_wf _ _ _ _ (rw_lwf _ _ _ _ _ _ _ _ W)) as W0. pose proof (wf_ss _ _ _ _ W0) as SX. unfold value2, RecSpec.flat.
  assert (G : forall l, incl l (terms x) -> fold_right va vzero (map (fun e => match snd e with Ok q => vm (value m q) (mono m (s_ss x) (exps x (fst e)) (s_ss x)) | _ => vzero end) l) =
     LIN (weight m us vs) (flat_map (fun e => match snd e with Ok c => map (fun f => ((spread (s_ss x) us (exps x (fst e)), spread (s_ss c) vs (ks_exps KSI (len (s_ss c)) (fst f))), snd f)) (terms c) | _ => [] end) l)).
  { induction l as [|[k c] l IH]; intros IL; [reflexivity|]. cbn [map fold_right flat_map fst snd]. rewrite (lin_app vzero vone va vm vs_ vo VR h). rewrite IH by (intros e Ie; apply IL; right; exact Ie). f_equal. clear IH.
    destruct (rw_inner _ _ _ _ _ _ _ _ W k c (IL _ (or_introl eq_refl))) as (q & -> & WQ & IQ). assert (CQ : covers vs q) by (split; [exact SV|intros z Iz; auto]).
    rewrite (value_lin KOI KSI CO vzero vone va vm vs_ vo VR vpow pw h h0 m vs q WQ CQ Hm P0). unfold vt.
    assert (MM : mono m (s_ss x) (exps x k) (s_ss x) = mono m us (spread (s_ss x) us (exps x k)) us).
    { rewrite mono_spread by (auto; apply sorted_set_nodup; exact SU). symmetry. apply (mono_more CO vzero vone va vm vs_ vo VR vpow pw h h0); auto; apply sorted_set_nodup; auto. }
    rewrite MM. generalize (terms q). intros t. induction t as [|f t IHt]; cbn [map lin fst snd]; [ring|]. rewrite <- IHt. unfold weight. cbn [fst snd]. ring. }
  apply G. apply incl_refl.
Qed.

Lemma value2_sum (m : symbol_map A) us vs sign (x y r : outer) : RWF U x -> RWF U y -> RWF U r -> sorted_set us -> incl (s_ss x) us -> incl (s_ss y) us -> incl (s_ss r) us -> sorted_set vs -> incl U vs -> sorted_set (names m) -> pow0 vone pw m ->
  (forall ws ts, coef2 us vs r ws ts = if (sign : bool) then c_add CO (coef2 us vs x ws ts) (coef2 us vs y ws ts) else c_sub CO (coef2 us vs x ws ts) (coef2 us vs y ws ts)) ->
  value2 m r = if sign then va (value2 m x) (value2 m y) else vs_ (value2 m x) (value2 m y).
Proof.
  intros WX WY WR SU IX IY IR SV IV Hm P0 E. rewrite (value2_lin m us vs r), (value2_lin m us vs x), (value2_lin m us vs y) by auto.
  assert (LS : forall l : list ((list Z * list Z) * C), LIN (weight m us vs) (map (fun e => (fst e, sg CO sign (snd e))) l) = if sign then LIN (weight m us vs) l else vo (LIN (weight m us vs) l)).
  { induction l as [|e l IH]; cbn [map lin fst snd]; [destruct sign; ring|]. rewrite IH, (h_sg CO CL vzero vone va vm vs_ vo VR h h0 h1). destruct sign; ring. }
  transitivity (va (LIN (weight m us vs) (flat us vs x)) (LIN (weight m us vs) (map (fun e => (fst e, sg CO sign (snd e))) (flat us vs y)))); [|rewrite LS; destruct sign; [reflexivity|symmetry; apply (Rsub_def VR)]].
  rewrite <- (lin_app vzero vone va vm vs_ vo VR h). apply (lin_ext CO vzero vone va vm vs_ vo VR pdec h h0 h1). intros a. rewrite (psum_app CO CL), <- !coef2_psum, E.
  destruct (sg_hom CO CL sign) as [S0 S1].
  assert (PS : psum CO (fun p => eqb pdec p a) (map (fun e => (fst e, sg CO sign (snd e))) (flat us vs y)) = sg CO sign (coef2 us vs y (fst a) (snd a))).
  { rewrite coef2_psum. generalize (flat us vs y). induction l as [|e l IH]; [unfold psum; cbn; symmetry; exact S0|]. cbn [map]. rewrite !(psum_cons CO CL), IH. cbn [fst snd]. destruct (eqb pdec (fst e) a); cbn [ifP]; [symmetry; apply S1|]. rewrite !(Radd_0_l (cl_ring _ CL)). reflexivity. }
  rewrite PS. destruct sign; cbn [sg]; [reflexivity|]. apply (Rsub_def (cl_ring _ CL)).
Qed.

Hypothesis hm : forall a b, h (c_mul CO a b) = vm (h a) (h b).
(** The exponents at both levels are in Ex. *)
Definition expos2 (Ex : Z -> Prop) (x : outer) : Prop := expos_in KS Ex x /\ forall k q, In (k, Ok q) (terms x) -> expos_in KSI Ex q.
Lemma flat_expos (Ex : Z -> Prop) us vs (x : outer) e : Ex 0 -> expos2 Ex x -> In e (flat us vs x) -> len (fst (fst e)) = len us /\ Forall Ex (fst (fst e)) /\ len (snd (fst e)) = len vs /\ Forall Ex (snd (fst e)).
Proof.
  intros E0 [X1 X2] I. unfold RecSpec.flat in I. apply in_flat_map in I as ([k c] & J & I). cbn [fst snd] in I. destruct c as [q| |]; try destruct I. apply in_map_iff in I as ([k' c'] & <- & I). cbn [fst snd].
  assert (I1 : In (spread (s_ss x) us (exps x k), Ok q) (vt KS us x)) by (unfold vt; apply in_map_iff; exists (k, Ok q); auto).
  assert (I2 : In (spread (s_ss q) vs (ks_exps KSI (len (s_ss q)) k'), c') (vt KSI vs q)) by (unfold vt; apply in_map_iff; exists (k', c'); auto).
  destruct (vt_in KS Ex us x _ E0 X1 I1), (vt_in KSI Ex vs q _ E0 (X2 k q J) I2). auto.
Qed.
Lemma value2_mul (m : symbol_map A) us vs (Ex : Z -> Prop) (x y r : outer) : RWF U x -> RWF U y -> RWF U r -> sorted_set us -> incl (s_ss x) us -> incl (s_ss y) us -> incl (s_ss r) us -> sorted_set vs -> incl U vs -> sorted_set (names m) -> pow0 vone pw m ->
  pow_adds vm pw Ex m -> expos2 Ex x -> expos2 Ex y -> (forall ws ts, coef2 us vs r ws ts = prod2 KS KSI CO us vs x y ws ts) -> value2 m r = vm (value2 m x) (value2 m y).
Proof.
  intros WX WY WR SU IX IY IR SV IV Hm P0 PA XX XY E. rewrite (value2_lin m us vs r), (value2_lin m us vs x), (value2_lin m us vs y) by auto.
  set (pr := fun p : ((list Z * list Z) * C) * ((list Z * list Z) * C) => ((vadd (fst (fst (fst p))) (fst (fst (snd p))), vadd (snd (fst (fst p))) (snd (fst (snd p)))), c_mul CO (snd (fst p)) (snd (snd p)))).
  rewrite (lin_ext CO vzero vone va vm vs_ vo VR pdec h h0 h1 _ (flat us vs r) (map pr (list_prod (flat us vs x) (flat us vs y)))).
  - assert (WT : forall e e', In e (flat us vs x) -> In e' (flat us vs y) -> weight m us vs (fst (pr (e, e'))) = vm (weight m us vs (fst e)) (weight m us vs (fst e'))).
    { intros e e' I J. destruct (flat_expos Ex us vs x e (proj1 PA) XX I) as (L1 & F1 & L2 & F2), (flat_expos Ex us vs y e' (proj1 PA) XY J) as (L1' & F1' & L2' & F2'). unfold weight, pr. cbn [fst snd].
      rewrite !(mono_vadd CO vzero vone va vm vs_ vo VR vpow pw h h0 Ex) by (auto; apply sorted_set_nodup; auto). ring. }
    revert WT. generalize (flat us vs x), (flat us vs y). intros l1 l2 WT. induction l1 as [|e l1 IH]; cbn [list_prod map lin]; [ring|]. rewrite map_app, (lin_app vzero vone va vm vs_ vo VR h), IH by (intros; apply WT; [right|]; auto). rewrite map_map.
    assert (G : forall l, incl l l2 -> LIN (weight m us vs) (map (fun x0 => pr (e, x0)) l) = vm (vm (h (snd e)) (weight m us vs (fst e))) (LIN (weight m us vs) l)).
    { induction l as [|e' l IH']; intros IL; cbn [map lin]; [ring|]. rewrite IH' by (intros z Iz; apply IL; right; exact Iz). rewrite WT by (try (left; reflexivity); apply IL; left; reflexivity). unfold pr at 1. cbn [snd fst]. rewrite hm. ring. }
    rewrite G by apply incl_refl. ring.
  - intros a. rewrite <- coef2_psum, E. unfold prod2, psum. generalize (list_prod (flat us vs x) (flat us vs y)). intros l. f_equal. induction l as [|p l IH]; [reflexivity|]. cbn [map filter]. unfold pr at 1. cbn [fst].
    assert (Q : (vec_eqb (vadd (fst (fst (fst p))) (fst (fst (snd p)))) (fst a) && vec_eqb (vadd (snd (fst (fst p))) (snd (fst (snd p)))) (snd a)) = eqb pdec (vadd (fst (fst (fst p))) (fst (fst (snd p))), vadd (snd (fst (fst p))) (snd (fst (snd p)))) a).
    { unfold eqb. destruct a as [wa ta]. cbn [fst snd]. unfold vec_eqb. destruct (list_eq_dec _ _ wa), (list_eq_dec _ _ ta), (pdec _ (wa, ta)); try congruence; reflexivity. }
    rewrite <- Q. destruct (_ && _); cbn [map]; rewrite IH; reflexivity.
Qed.

(** C76. Values of sums and differences. *)
Theorem rec_evaluate_additive : forall (m : symbol_map A) (sign : bool) (x y r : outer), RWF U x -> RWF U y -> sorted_set U -> Z.of_nat (len U + len U) <= imax size_t -> Z.of_nat (len (s_ss x) + len (s_ss y)) <= imax size_t ->
  sorted_set (names m) -> incl (s_ss x) (names m) -> incl (s_ss y) (names m) -> incl U (names m) -> pow0 vone pw m -> powers2 m x -> powers2 m y -> powers2 m r ->
  settle (if sign then series_add KO RC PO TO x y else series_sub KO RC PO TO x y) = Ok r ->
  exists a b, evaluate x m = Ok a /\ evaluate y m = Ok b /\ evaluate r m = Ok (if sign then va a b else vs_ a b).
Proof.
  intros m sign x y r WX WY SU UB B Hm IX IY IU P0 PX PY PR E. pose proof (rec_add_sub KO KS TO KOI KSI CO POI TOI EI PO KL KLI CL U UB sign x y WX WY B) as H. cbv zeta in H. rewrite E in H.
  destruct H as [(r' & ER & [SR UR] & WR & HE)|[[X|X] _]]; try discriminate. assert (r' = r) by congruence. subst r'.
  assert (UI : forall z : outer, RWF U z -> forall k q, In (k, Ok q) (terms z) -> incl (s_ss q) (names m)). { intros z WZ k q J. destruct (rw_inner _ _ _ _ _ _ _ _ WZ k _ J) as (q' & [= <-] & _ & IQ). eapply incl_tran; eauto. }
  assert (IR : incl (s_ss r) (names m)) by (intros z J; apply UR in J as [J|J]; auto).
  exists (value2 m x), (value2 m y). repeat apply conj.
  - apply (rec_evaluate_exact m x WX Hm); eauto.
  - apply (rec_evaluate_exact m y WY Hm); eauto.
  - rewrite (proj2 (proj2 (rec_evaluate_exact m r WR Hm)) IR PR (UI r WR)). f_equal. apply (value2_sum m (s_ss r) U); auto using incl_refl; try (intros z J; apply UR; auto).
Qed.

(** C76. Values of products. *)
Theorem rec_evaluate_multiplicative : forall (m : symbol_map A) E (Ex : Z -> Prop) (x y r : outer), env_ok KO KS E -> env_ok KOI KSI EI -> RWF U x -> RWF U y -> sorted_set U -> Z.of_nat (len U + len U) <= imax size_t -> Z.of_nat (len (s_ss x) + len (s_ss y)) <= imax size_t ->
  sorted_set (names m) -> incl (s_ss x) (names m) -> incl (s_ss y) (names m) -> incl U (names m) -> pow0 vone pw m -> pow_adds vm pw Ex m -> expos2 Ex x -> expos2 Ex y -> powers2 m x -> powers2 m y -> powers2 m r ->
  settle (poly_mul KO RC PO TO E x y) = Ok r ->
  exists a b, evaluate x m = Ok a /\ evaluate y m = Ok b /\ evaluate r m = Ok (vm a b).
Proof.
  intros m E Ex x y r EO EOI WX WY SU UB B Hm IX IY IU P0 PA XX XY PX PY PR EM. pose proof (rec_mul KO KS TO KOI KSI CO POI TOI EI PO KL KLI CL EOI U UB E x y EO WX WY B) as H. cbv zeta in H. rewrite EM in H.
  destruct H as (u & [SR UR] & [(r' & ER & SS & _ & WR & HE)|[[X|X] _]]); try discriminate. assert (r' = r) by congruence. subst r' u.
  assert (UI : forall z : outer, RWF U z -> forall k q, In (k, Ok q) (terms z) -> incl (s_ss q) (names m)). { intros z WZ k q J. destruct (rw_inner _ _ _ _ _ _ _ _ WZ k _ J) as (q' & [= <-] & _ & IQ). eapply incl_tran; eauto. }
  assert (IR : incl (s_ss r) (names m)) by (intros z J; apply UR in J as [J|J]; auto).
  exists (value2 m x), (value2 m y). repeat apply conj.
  - apply (rec_evaluate_exact m x WX Hm); eauto.
  - apply (rec_evaluate_exact m y WY Hm); eauto.
  - rewrite (proj2 (proj2 (rec_evaluate_exact m r WR Hm)) IR PR (UI r WR)). f_equal. apply (value2_mul m (s_ss r) U Ex); auto using incl_refl; try (intros z J; apply UR; auto).
Qed.
End U.
End E.
Print Assumptions rec_evaluate_exact.
Print Assumptions rec_evaluate_additive.
Print Assumptions rec_evaluate_multiplicative.

(** * The hypotheses are met: rx = (x + y^2) a + (x - 3) b^2 and ry = 2 x a - x at a = 2, b = 3, x = 5, y = 7 *)
Definition epow (v e : Z) : res Z := if e <? 0 then Throw domain_error else Ok (v ^ e).
Definition em : symbol_map Z := [("a", 2); ("b", 3); ("x", 5); ("y", 7)]%string.
Definition nonneg {C Tag} (s : series Z C Tag) : bool := forallb (fun e => forallb (Z.leb 0) (ks_exps exS (len (s_ss s)) (fst e))) (terms s).
Definition nonneg2 (x : series Z (res (series Z Z Z)) Z) : bool := nonneg x && forallb (fun e => match snd e with Ok q => nonneg q | _ => false end) (terms x).
Lemma nonneg_ok {C Tag} (s : series Z C Tag) : nonneg s = true -> expos_in exS (fun e => 0 <= e) s.
Proof. intros H k c I. unfold nonneg in H. rewrite forallb_forall in H. specialize (H _ I). rewrite forallb_forall in H. apply Forall_forall. intros e J. apply Z.leb_le. apply H. exact J. Qed.
Lemma nonneg_powers {C Tag} (s : series Z C Tag) : nonneg s = true -> powers_exist exS epow Z.pow em s.
Proof.
  intros H z v k c _ I _. pose proof (nonneg_ok s H k c I) as F. pose proof (expo_in (fun e => 0 <= e) (s_ss s) _ z ltac:(cbn; lia) F) as G. cbn beta in G. unfold epow. destruct (Z.ltb_spec (expo (s_ss s) (ks_exps exS (len (s_ss s)) k) z) 0); [lia|reflexivity].
Qed.
Lemma nonneg2_ok x : nonneg2 x = true -> powers2 exS exS epow Z.pow em x /\ expos2 exS exS (fun e => 0 <= e) x.
Proof.
  intros H. apply andb_true_iff in H as [H1 H2]. rewrite forallb_forall in H2. split; (split; [auto using nonneg_powers, nonneg_ok|]); intros k q I; specialize (H2 _ I); cbn [snd] in H2; auto using nonneg_powers, nonneg_ok.
Qed.
Definition rsum := get dR (settle (series_add exK rC rP Z_tag rx ry)).
Definition rprod := get dR (settle (poly_mul exK rC rP Z_tag (rE true 2) rx ry)).
Example ex_rec_evaluate :
  let ev x m := rec_evaluate exK exK 0 1 Z.add Z.mul epow (fun c => Ok c) x m in
  sorted_set (map fst em) /\ incl xy (map fst em) /\ pow0 1 Z.pow em /\ pow_adds Z.mul Z.pow (fun e => 0 <= e) em /\
  (powers2 exS exS epow Z.pow em rx /\ expos2 exS exS (fun e => 0 <= e) rx) /\ (powers2 exS exS epow Z.pow em ry /\ expos2 exS exS (fun e => 0 <= e) ry) /\
  powers2 exS exS epow Z.pow em rsum /\ powers2 exS exS epow Z.pow em rprod /\
  settle (series_add exK rC rP Z_tag rx ry) = Ok rsum /\ settle (poly_mul exK rC rP Z_tag (rE true 2) rx ry) = Ok rprod /\
  ev rx em = Ok 126 /\ ev ry em = Ok 15 /\ ev rsum em = Ok 141 /\ ev rprod em = Ok 1890 /\
  ev rx [("a", 2); ("x", 5); ("y", 7)]%string = Throw invalid_argument /\ ev rx [("a", 2); ("b", 3); ("x", 5)]%string = Throw invalid_argument.
Proof.
  cbv zeta.
  assert (N : nonneg2 rx = true /\ nonneg2 ry = true /\ nonneg2 rsum = true /\ nonneg2 rprod = true) by (vm_compute; auto). destruct N as (N1 & N2 & N3 & N4).
  split; [repeat constructor|]. split; [intros z [<-|[<-|[]]]; cbn; auto|]. split; [intros z v _; reflexivity|]. split; [split; [cbn; lia|intros z v a b _ Ha Hb; apply Z.pow_add_r; auto]|].
  split; [exact (nonneg2_ok rx N1)|]. split; [exact (nonneg2_ok ry N2)|]. split; [exact (proj1 (nonneg2_ok rsum N3))|]. split; [exact (proj1 (nonneg2_ok rprod N4))|].
  repeat (split; [vm_compute; reflexivity|]). vm_compute; reflexivity.
Qed.
