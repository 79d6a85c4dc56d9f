(** Property C96: substitution of numbers in polynomials with polynomial coefficients.  Vocabulary: RecSubsSpec.v ([subs2]: the coefficients after the substitution, term by term),
    RecSpec.v ([coef2], [rwf]), EvalSpec.v ([powers_exist]), P_Rec.v ([coefficient_throws]). *)
From Coq Require Import ZArith List Bool String Arith Lia Permutation Sorted Ring Ring_theory.
From Verif Require Import Base KpackModel KpackSpec KpackProofs P_Kpack SymSpec SymModel SymProofs P_Sym PMonSpec PMonModel PMonProofs PMonProofs2 P_PMon KeyOps KeyInst SeriesModel SeriesModel2 SeriesSpec PolyModel PolyModel2 PolySpec CalcSpec PolyProofs PolyProofs2
  SeriesProofs SeriesProofs2 SeriesProofs3 SeriesProofs4 SeriesProofs5 SeriesProofs6 Lin EvalSpec SeriesEval SeriesProofs7 CfInst P_Series P_Series2 P_Poly P_Poly2 PolyProofs5 PolyProofs6 PolyProofs7 PolyProofs8 PolyProofs9 DiffProofs SubsSpec SubsProofs SubsProofs2 P_Subs
  LfSpec LfProofs LfProofs2 LfProofs3 LfProofs4 P_Lf P_Lf2 RecModel RecModel5 RecModel9 RecSpec RecSubsSpec RecProofs P_Rec P_Rec4 P_Rec6 EqProofs P_Rec7.
Import ListNotations.
Open Scope Z_scope.
Open Scope res_scope.
Local Notation len := List.length.

Section R.
Context {K Tag KI C TagI : Type} (KO : key_ops K) (KS : key_sem K) (TO : tag_ops Tag)
  (KOI : key_ops KI) (KSI : key_sem KI) (CO : cf_ops C) (POI : tbl_policy (KI * C)) (TOI : tag_ops TagI) (EI : mul_env KI C TagI).
Hypothesis KL : key_laws KO KS.
Hypothesis KLI : key_laws KOI KSI.
Hypothesis CL : cf_laws CO.
Hypothesis EOI : env_ok KOI KSI EI.
Hypothesis F0I : ks_fits KSI [].
Notation inner := (series KI C TagI).
Notation outer := (series K (res inner) Tag).
Variable PO : tbl_policy (K * res inner).
Notation RC := (rec_cf KOI CO POI TOI EI).
Notation RWF := (rwf KO KS RC KOI KSI CO).
Notation coef2 := (coef2 KS KSI CO).
Notation coefI := (coef KSI CO).
Notation wfI := (wf KOI KSI CO).
Notation exps s k := (ks_exps KS (List.length (s_ss s)) k).
Notation expsI s k := (ks_exps KSI (List.length (s_ss s)) k).
Infix "+c" := (c_add CO) (at level 50, left associativity).
Infix "*c" := (c_mul CO) (at level 40, left associativity).
Notation "0c" := (c_zero CO).
Notation "1c" := (c_one CO).
Add Ring Cring10 : (cl_ring _ CL).
Context {A : Type} (vpow : A -> Z -> res C) (pw : A -> Z -> C).
Notation subs2 := (subs2 KS KSI CO pw).
Notation weight sm ss es := (mono 1c (c_mul CO) pw sm ss es ss).

(** The coefficient 1. *)
Lemma one_ok : exists o : inner, c_one RC = Ok o /\ wfI o /\ s_ss o = [] /\ exists k, terms o = [(k, 1c)].
Proof.
  destruct (of_cf_ok KOI KSI CO POI TOI KLI CL 1c []) as (o & E & W & S & _ & _ & T); [constructor|exact F0I|]. exists o. split; [exact E|]. split; [exact W|]. split; [exact S|]. exists (k_of_ss KOI []).
  rewrite T. destruct (c_is_zero CO 1c) eqn:Z; [|reflexivity]. apply (cl_zero _ CL) in Z. exfalso. exact (cl_one _ CL Z).
Qed.
Lemma vadd_zeros v : vadd v (repeat 0 (len v)) = v.
Proof. induction v as [|z v IH]; [reflexivity|]. cbn [List.length repeat vadd]. unfold vadd in *. cbn. rewrite Z.add_0_r. f_equal. exact IH. Qed.
Lemma one_times (o q : inner) k vs ts : wfI o -> s_ss o = [] -> terms o = [(k, 1c)] -> wfI q -> prod_coef KSI CO vs o q ts = coefI vs q ts.
Proof.
  intros WO SO TO' WQ. unfold prod_coef, coef. rewrite TO', SO. cbn [list_prod]. rewrite List.app_nil_r. unfold psum.
  assert (Z0 : spread [] vs (ks_exps KSI (len (@nil string)) k) = repeat 0 (len vs)).
  { assert (V : ks_valid KSI (len (s_ss o)) k) by (apply (wf_valid _ _ _ _ WO k 1c); rewrite TO'; left; reflexivity). rewrite SO in V. pose proof (kl_len _ _ KLI _ _ V) as L. destruct (ks_exps KSI (len (@nil string)) k) as [|z l]; [|discriminate L].
    apply (spread_zeros [] vs). }
  rewrite filter_map_gen, map_map. cbn [fst snd].
  assert (E : forall l : list (KI * C), csum CO (map (fun x => 1c *c snd x) l) = csum CO (map snd l)) by (induction l as [|a l IH]; [reflexivity|]; cbn [map csum fold_right]; fold (csum CO (map (fun x : KI * C => 1c *c snd x) l)); fold (csum CO (map snd l)); rewrite IH; ring).
  rewrite E. f_equal. f_equal. apply filter_ext_in. intros [ki c] _. cbn [fst]. f_equal. change (len (@nil string)) with O in *. rewrite Z0, vadd_comm. rewrite <- (spread_len (s_ss q) vs (expsI q ki)) at 1. apply vadd_zeros.
Qed.

Section U.
Variable U : symbol_set.
Hypothesis UB : Z.of_nat (len U + len U) <= imax size_t.

(** tmp_poly: a monomial with coefficient 1. *)
Lemma tmp2 (x : outer) (o : inner) k' : RWF U x -> ks_valid KS (len (s_ss x)) k' -> wfI o -> s_ss o = [] -> terms o <> [] ->
  exists t, settle (add_term KO RC PO true (Series [[]] 0 (s_tag x) (s_ss x)) k' (Ok o)) = Ok t /\ RWF U t /\ s_ss t = s_ss x /\ s_log2 t = 0%nat /\
    forall us ws, covers us x -> entry KS us t ws = if vec_eqb (spread (s_ss x) us (exps x k')) ws then Some (Ok o) else None.
Proof.
  intros W V WP SO NO. pose proof (lw_wf _ _ _ _ (rw_lwf _ _ _ _ _ _ _ _ W)) as LX.
  destruct (set_n_segments_ok KO KS RC (Series [[]] 0 (s_tag x) (s_ss x)) 0) as [_ W0]; [cbn; lia|apply (wf_ss _ _ _ _ LX)|]. cbn [s_tag s_ss] in W0.
  change (repeat [] (2 ^ 0)) with [@nil (K * res inner)] in W0. set (s0 := Series [[]] 0 (s_tag x) (s_ss x)) in *.
  assert (L0 : lwf KO KS RC s0) by (constructor; [exact W0|intros k c []]).
  destruct (any_cf_add_term KO KS RC PO KL (rec_light KOI CO POI TOI EI) true s0 k' (Ok o) L0 V) as [(r & ER & LR & SR & _ & LG & H)|[_ [X _]]]; [|elim X; reflexivity].
  cbn [s_ss s_log2 s0] in SR, LG, H. pose proof (lw_wf _ _ _ _ LR) as WR.
  assert (H' : forall us ws, covers us x -> entry KS us r ws = if vec_eqb (spread (s_ss x) us (exps x k')) ws then Some (Ok o) else None).
  { intros us ws [SU IU]. rewrite H by auto. change (entry KS us s0 ws) with (@None (res inner)). destruct (vec_eqb _ ws); [|reflexivity]. cbn [merged]. unfold nonzero. cbn [c_is_zero rec_cf].
    replace (series_empty o) with false; [reflexivity|]. destruct (series_empty o) eqn:E; [|reflexivity]. apply empty_terms in E. congruence. }
  assert (N : forall k c, In (k, c) (terms r) -> c = Ok o).
  { intros k c I. destruct (in_entry KO KS KOI CO POI TOI EI KL r k c WR I) as (ws & EE). rewrite SR in EE. rewrite H' in EE by (split; [apply (wf_ss _ _ _ _ LX)|apply incl_refl]).
    destruct (vec_eqb _ ws); [|discriminate]. congruence. }
  exists r. rewrite ER. split.
  - destruct (settle_spec r) as [[S _]|[_ (r' & k & c & E & I & O)]]; [intros k c I; left; exists o; apply (N k c I)|exact S|]. exfalso. injection E as <-. rewrite (N k c I) in O. destruct O; discriminate.
  - split; [|split; [exact SR|split; [exact LG|exact H']]]. constructor; [exact LR|]. intros k c I. exists o. split; [apply (N k c I)|]. split; [exact WP|]. rewrite SO. intros z [].
Qed.

(** The contribution of one outer term. *)
Lemma step_sum sm us vs so (k : K) (q d : inner) v ws ts : wfI q -> wfI d -> v = weight sm so (ks_exps KS (len so) k) ->
  coefI vs d ts = csum CO (map (fun e => if vec_eqb (spread (s_ss q) vs (keep sm (s_ss q) (expsI q (fst e)))) ts then weight sm (s_ss q) (expsI q (fst e)) *c snd e else 0c) (terms q)) ->
  (if vec_eqb (spread so us (keep sm so (ks_exps KS (len so) k))) ws then coefI vs d ts *c v else 0c) = subs2 sm us vs so [(k, Ok q)] ws ts.
Proof.
  intros WQ WD -> ->. unfold RecSubsSpec.subs2, contribution. cbn [flat_map fst snd]. rewrite List.app_nil_r.
  destruct (vec_eqb (spread so us _) ws); cbn [andb].
  - induction (terms q) as [|e l IH]; cbn [map csum fold_right]; [ring|]. fold (csum CO (map (fun e => if vec_eqb (spread (s_ss q) vs (keep sm (s_ss q) (expsI q (fst e)))) ts then weight sm (s_ss q) (expsI q (fst e)) *c snd e else 0c) l)).
    match goal with |- _ = _ +c ?X => change X with (csum CO (map (fun f => if vec_eqb (spread (s_ss q) vs (keep sm (s_ss q) (expsI q (fst f)))) ts then weight sm so (ks_exps KS (len so) k) *c weight sm (s_ss q) (expsI q (fst f)) *c snd f else 0c) l)) end.
    rewrite <- IH. destruct (vec_eqb _ ts); ring.
  - induction (terms q) as [|e l IH]; [reflexivity|]. cbn [map csum fold_right]. match goal with |- _ = _ +c ?X => change X with (csum CO (map (fun _ => 0c) l)) end. rewrite <- IH. ring.
Qed.
Lemma subs2_app sm us vs so (l l' : list (K * res inner)) ws ts : subs2 sm us vs so (l ++ l') ws ts = subs2 sm us vs so l ws ts +c subs2 sm us vs so l' ws ts.
Proof. unfold RecSubsSpec.subs2. rewrite flat_map_app, (csum_app CO CL). reflexivity. Qed.

(** r is the sum for the first terms, l, of x. *)
Definition partial_subs (x : outer) (sm : symbol_map A) (l : list (K * res inner)) (r : outer) : Prop :=
  RWF U r /\ forall us vs ws ts, covers us x -> sorted_set vs -> incl U vs -> coef2 us vs r ws ts = subs2 sm us vs (s_ss x) l ws ts.
(** Why the substitution throws: at some term of x, whose monomial is t and whose coefficient is d after the substitution (times the values of the symbols of the monomial), the product of the
    coefficient of t, 1, and d throws, or the sum of two coefficients of t d and of the result for the terms before it. *)
Definition subs_fails (x : outer) (sm : symbol_map A) : Prop :=
  exists pre k q post r t d, terms x = pre ++ (k, Ok q) :: post /\ partial_subs x sm pre r /\ RWF U t /\ wfI d /\ incl (s_ss d) U /\
    (forall us vs ws ts, covers us x -> sorted_set vs -> incl U vs -> scaled2 KS KSI CO us vs t d ws ts = subs2 sm us vs (s_ss x) [(k, Ok q)] ws ts) /\
    (coefficient_throws (Ok (rec_scalar_mul KO KOI CO POI TOI EI t d)) \/
     exists p, settle (Ok (rec_scalar_mul KO KOI CO POI TOI EI t d)) = Ok p /\ coefficient_throws (series_in_place_addsub KO RC PO RC PO TO true (fun c => c) r false p)).

(** C96. subs(x, sm): the coefficients in all the symbols together are those of the substitution term by term, both in the outer monomials and in those of the coefficients; or an overflow is thrown by an
    operation on coefficients. *)
Theorem rec_subs_exact : forall (x : outer) (sm : symbol_map A), RWF U x -> sorted_set (map fst sm) -> Z.of_nat (len (s_ss x) + len (s_ss x)) <= imax size_t ->
  powers_exist KS vpow pw sm x -> (forall k q, In (k, Ok q) (terms x) -> powers_exist KSI vpow pw sm q) ->
  let out := rec_subs KO TO KOI CO POI TOI EI PO vpow x sm in
  (exists r, out = Ok r /\ RWF U r /\ (s_ss r = s_ss x \/ (terms x = [] /\ r = series_default TO)) /\
     forall us vs ws ts, covers us x -> sorted_set vs -> incl U vs -> coef2 us vs r ws ts = subs2 sm us vs (s_ss x) (terms x) ws ts) \/
  (key_overflow out /\ subs_fails x sm).
Proof.
  intros x sm W Hm SZ PE PI out. unfold out, rec_subs. pose proof (lw_wf _ _ _ _ (rw_lwf _ _ _ _ _ _ _ _ W)) as WX. pose proof (wf_ss _ _ _ _ WX) as Hs.
  unfold set_symbol_set. change (series_empty (series_default TO)) with true. cbn iota. cbn [bind]. change (set_tag _ (s_tag x)) with (Series [@nil (K * res inner)] 0 (s_tag x) (s_ss x)). cbv zeta.
  set (I := fun (done : list (K * res inner)) (r : outer) => RWF U r /\ s_log2 r = 0%nat /\ (s_ss r = s_ss x \/ (done = [] /\ r = series_default TO)) /\ forall us vs ws ts, covers us x -> sorted_set vs -> incl U vs -> coef2 us vs r ws ts = subs2 sm us vs (s_ss x) done ws ts).
  destruct (rfold_inv (rec_subs_step KO TO KOI CO POI TOI EI PO vpow x sm (Series [[]] 0 (s_tag x) (s_ss x))) I (fun o => key_overflow o /\ subs_fails x sm))
    with (l := terms x) (pre := @nil (K * res inner)) (b := series_default TO : outer) as [(r & E & (Wr & _ & SS & SM))|B].
  - intros b [[X|X] _]; discriminate X.
  - destruct (set_n_segments_ok KO KS RC (series_default TO) 0) as [_ X]; [cbn; lia|constructor|]. cbn [series_default s_tag s_ss] in X. change (repeat [] (2 ^ 0)) with [@nil (K * res inner)] in X.
    split; [constructor; [constructor; [exact X|intros k c []]|intros k c []]|]. split; [reflexivity|]. split; [right; auto|]. intros us vs ws ts _ _ _. reflexivity.
  - cbn [app]. intros p r [k c] q0 EQ (Wr & L0 & SS & SM). assert (J : In (k, c) (terms x)) by (rewrite EQ; apply in_or_app; right; left; reflexivity).
    destruct (rw_inner _ _ _ _ _ _ _ _ W k c J) as (q & -> & WQ & IQ). pose proof (wf_valid _ _ _ _ WX k _ J) as V. assert (LE : len (exps x k) = len (s_ss x)) by (apply (kl_len _ _ KL); exact V).
    unfold rec_subs_step. cbn [fst snd].
    destruct (kl_subs _ _ KL C A 1c (c_mul CO) vpow pw k (s_ss x) (sm_intersect_idx sm (s_ss x)) V (idx_sorted sm (s_ss x) Hm Hs) (idx_bound sm (s_ss x) Hm Hs)) as (k' & EK & V' & X').
    { intros i u JJ. apply (idx_iff sm (s_ss x) Hm Hs) in JJ as (n & En & AS). assert (EX : expo (s_ss x) (exps x k) n = nth i (exps x k) 0).
      { eapply expo_nth; eauto; [apply sorted_set_nodup; auto|]. apply nth_error_nth'. rewrite LE. apply nth_error_Some. congruence. }
      rewrite <- EX. apply (PE n u k (Ok q)); [apply assoc_iff; auto; apply sorted_set_nodup; auto|exact J|eapply nth_error_In; eauto]. }
    rewrite EK. cbn [bind].
    rewrite (idx_mono sm (s_ss x) Hm Hs 0c 1c (c_add CO) (c_mul CO) (c_sub CO) (c_neg CO) (cl_ring _ CL) pw (exps x k) LE) in *.
    rewrite (idx_zero sm (s_ss x) Hm Hs _ LE) in X'. set (v := weight sm (s_ss x) (exps x k)) in *.
    destruct one_ok as (o & EO & WO & SO & ko & TO'). rewrite EO. change (clear_terms (Series [[]] 0 (s_tag x) (s_ss x))) with (Series [@nil (K * res inner)] 0 (s_tag x) (s_ss x)).
    destruct (tmp2 x o k' W V' WO SO ltac:(rewrite TO'; discriminate)) as (t & ET & Wt & St & Lt & Ht). rewrite ET. cbn [bind].
    assert (BQ : Z.of_nat (len (s_ss q) + len (s_ss q)) <= imax size_t) by (pose proof (NoDup_incl_length (sorted_set_nodup _ (wf_ss _ _ _ _ WQ)) IQ); lia).
    destruct (subs_scalar_exact KOI KSI CO POI TOI KLI CL A vpow pw q sm WQ Hm (PI k q J) BQ) as (qs & EQS & WQS & SQS & HQS). rewrite EQS. cbn [bind].
    destruct (scalar_mul_exact KOI KSI CO KLI CL qs v WQS) as (Wd & Sd & _ & Cd & _). set (d := series_scalar_mul KOI CO qs v) in *.
    assert (Id : incl (s_ss d) U). { rewrite Sd. destruct SQS as [->|[_ ->]]; [exact IQ|intros z []]. }
    assert (HS : forall us vs ws ts, covers us x -> sorted_set vs -> incl U vs -> scaled2 KS KSI CO us vs t d ws ts = subs2 sm us vs (s_ss x) [(k, Ok q)] ws ts).
    { intros us vs ws ts CV SV IV. rewrite (scaled2_entry KO KS KOI KSI CO POI TOI EI KL CL us vs t d ws ts) by (first [apply (lw_wf _ _ _ _ (rw_lwf _ _ _ _ _ _ _ _ Wt))|rewrite St; apply CV]).
      rewrite Ht by exact CV. rewrite X'. rewrite <- (step_sum sm us vs (s_ss x) k q qs v ws ts WQ WQS eq_refl); [|apply HQS; split; [exact SV|intros z Z; apply IV, IQ, Z]].
      destruct (vec_eqb _ ws); [|reflexivity]. cbn [gp]. rewrite (one_times o d ko vs ts WO SO TO' Wd). apply Cd. }
    destruct (rec_scalar_mul_exact KO KS KOI KSI CO POI TOI EI KL KLI CL EOI U UB t d Wt Wd Id) as [(pp & Ep & Sp & _ & Wp & Hp)|[Op Tp]].
    2:{ right. split; [destruct Op as [O|O]; rewrite O; [left|right]; reflexivity|]. exists p, k, q, q0, r, t, d. split; [exact EQ|]. split; [split; auto|]. split; [exact Wt|]. split; [exact Wd|]. split; [exact Id|]. split; [exact HS|]. left. exact Tp. }
    rewrite Ep. cbn [bind]. rewrite St in Sp.
    assert (Lp : s_log2 pp = 0%nat).
    { assert (pp = rec_scalar_mul KO KOI CO POI TOI EI t d) as ->. { unfold settle in Ep. cbn [bind] in Ep. destruct (rmap _ _); cbn [bind] in Ep; congruence. } apply scalar_log2. exact Lt. }
    assert (SZ' : Z.of_nat (len (s_ss r) + len (s_ss pp)) <= imax size_t). { rewrite Sp. destruct SS as [->|[_ ->]]; [exact SZ|]. cbn [series_default s_ss List.length]. lia. }
    destruct (rec_in_place KO KS TO KOI KSI CO POI TOI EI PO KL KLI CL U UB true r false pp Wr Wp ltac:(discriminate) SZ') as [(r' & E' & U' & Wr' & H')|[O' T']].
    + left. exists r'. split; [exact E'|]. split; [exact Wr'|]. split; [|split].
      * assert (EI' : series_in_place_addsub KO RC PO RC PO TO true (fun c => c) r false pp = Ok r'). { unfold settle in E'. destruct (series_in_place_addsub _ _ _ _ _ _ _ _ _ _ _) as [z| |]; cbn [bind] in E'; [|discriminate E'..]. destruct (rmap _ _); cbn [bind] in E'; congruence. }
        destruct (in_place_lf KO KS RC PO TO KL (rec_light KOI CO POI TOI EI) true false r pp (rw_lwf _ _ _ _ _ _ _ _ Wr) (rw_lwf _ _ _ _ _ _ _ _ Wp) ltac:(discriminate) SZ') as [(r2 & E2 & _ & _ & _ & _ & L2)|[E2 _]]; [congruence|]. destruct E2; congruence.
      * left. apply sorted_ext; [apply U'|exact Hs|]. intros z. rewrite (proj2 U' z), Sp. destruct SS as [->|[_ ->]]; cbn; tauto.
      * assert (SR' : s_ss r' = s_ss x). { apply sorted_ext; [apply U'|exact Hs|]. intros z. rewrite (proj2 U' z), Sp. destruct SS as [->|[_ ->]]; cbn; tauto. }
        intros us vs ws ts CV SV IV. rewrite H' by (auto; rewrite SR'; apply CV). rewrite subs2_app, SM by auto. f_equal. rewrite Hp by (auto; rewrite St; apply CV). apply HS; auto.
    + right. split; [exact O'|]. exists p, k, q, q0, r, t, d. split; [exact EQ|]. split; [split; auto|]. split; [exact Wt|]. split; [exact Wd|]. split; [exact Id|]. split; [exact HS|]. right. exists pp. split; [exact Ep|].
      destruct T' as [T'|[(u & [SU IU] & UN)|[[F _]|[F _]]]]; [exact T'| |congruence|congruence]. exfalso.
      assert (u = s_ss x) as -> by (apply sorted_ext; auto; intros z; rewrite IU, Sp; destruct SS as [->|[_ ->]]; cbn; tauto).
      pose proof (lw_wf _ _ _ _ (rw_lwf _ _ _ _ _ _ _ _ Wr)) as Wr0. pose proof (lw_wf _ _ _ _ (rw_lwf _ _ _ _ _ _ _ _ Wp)) as Wp0.
      destruct UN as [UN|UN]; [destruct SS as [SS|[_ SS]]|].
      * rewrite <- SS in UN. exact (not_unrep_self KO KS RC KL r Wr0 UN).
      * subst r. destruct UN as (? & ? & [] & _).
      * rewrite <- Sp in UN. exact (not_unrep_self KO KS RC KL pp Wp0 UN).
  - left. exists r. split; [exact E|]. split; [exact Wr|]. split; [exact SS|exact SM].
  - right. exact B.
Qed.

(** C96. The substituted symbols no longer occur, neither in the outer monomials nor in the coefficients. *)
Theorem rec_subs_removes : forall (x r : outer) (sm : symbol_map A), RWF U x -> sorted_set U -> sorted_set (map fst sm) -> Z.of_nat (len (s_ss x) + len (s_ss x)) <= imax size_t ->
  powers_exist KS vpow pw sm x -> (forall k q, In (k, Ok q) (terms x) -> powers_exist KSI vpow pw sm q) ->
  rec_subs KO TO KOI CO POI TOI EI PO vpow x sm = Ok r ->
  forall k q z u, In (k, Ok q) (terms r) -> In (z, u) sm -> expo (s_ss r) (exps r k) z = 0 /\ forall ki c, In (ki, c) (terms q) -> expo (s_ss q) (expsI q ki) z = 0.
Proof.
  intros x r sm W SU Hm SZ PE PI ER k q z u J JS. destruct (rec_subs_exact x sm W Hm SZ PE PI) as [(r' & ER' & Wr & SS & SM)|[[X|X] _]]; [|congruence|congruence]. assert (r' = r) by congruence. subst r'.
  destruct SS as [SS|[_ ->]]; [|elim J]. pose proof (lw_wf _ _ _ _ (rw_lwf _ _ _ _ _ _ _ _ Wr)) as Wr0. pose proof (wf_ss _ _ _ _ (lw_wf _ _ _ _ (rw_lwf _ _ _ _ _ _ _ _ W))) as Hs.
  destruct (rw_inner _ _ _ _ _ _ _ _ Wr k _ J) as (q' & EQ & WQ & IQ). assert (q' = q) by congruence. subst q'.
  assert (AS : assoc sm z = Some u) by (apply assoc_iff; auto; apply sorted_set_nodup; auto).
  assert (G : forall ki c, In (ki, c) (terms q) -> expo (s_ss r) (exps r k) z = 0 /\ expo (s_ss q) (expsI q ki) z = 0).
  { intros ki c I. assert (NZ := wf_nonzero _ _ _ _ WQ ki c I). assert (CQ : covers U q) by (split; auto).
    rewrite <- (coef_term KOI KSI CO KLI CL U q ki c WQ CQ I) in NZ. set (ts := spread (s_ss q) U (expsI q ki)) in *. set (ws := spread (s_ss r) (s_ss x) (exps r k)).
    assert (EN : entry KS (s_ss x) r ws = Some (Ok q)) by (apply (entry_in KO KS RC KL (s_ss x) r ws (Ok q) Wr0); [rewrite SS; apply incl_refl|]; exists k; auto).
    assert (C2 : coef2 (s_ss x) U r ws ts = coefI U q ts) by (rewrite (coef2_entry KO KS KOI KSI CO POI TOI EI KL CL (s_ss x) U r ws ts Wr0) by (rewrite SS; apply incl_refl); rewrite EN; reflexivity).
    assert (CX : covers (s_ss x) x) by (split; [exact Hs|apply incl_refl]). rewrite <- C2, (SM (s_ss x) U ws ts CX SU (incl_refl _)) in NZ. unfold RecSubsSpec.subs2 in NZ. apply (csum_nonzero CO CL) in NZ as (c' & I' & NZ). apply in_flat_map in I' as ([k0 c0] & J0 & I'). cbn [fst snd] in I'.
    destruct c0 as [q0| |]; [|destruct I'..]. apply in_map_iff in I' as ([k1 c1] & EE & I1). cbn [fst snd] in EE. unfold contribution in EE.
    destruct (vec_eqb (spread (s_ss x) (s_ss x) _) ws) eqn:E1; [|cbn [andb] in EE; congruence]. destruct (vec_eqb (spread (s_ss q0) U _) ts) eqn:E2; [|cbn [andb] in EE; congruence].
    apply vec_eqb_iff in E1, E2. clear EE. destruct (rw_inner _ _ _ _ _ _ _ _ W k0 _ J0) as (q0' & EQ0 & WQ0 & IQ0). assert (q0' = q0) by congruence. subst q0'.
    assert (KZ : forall ss es, expo ss (keep sm ss es) z = 0). { intros ss es. unfold keep. rewrite expo_map. destruct (in_dec string_dec z ss); [|reflexivity]. rewrite AS. reflexivity. }
    split.
    - unfold ws in E1. rewrite SS in E1 |- *. rewrite !spread_self in E1; [rewrite <- E1; apply KZ|apply sorted_set_nodup; exact Hs| |apply sorted_set_nodup; exact Hs|apply keep_len].
      rewrite <- SS. apply (kl_len _ _ KL). apply (wf_valid _ _ _ _ Wr0 k _ J).
    - destruct (in_dec string_dec z (s_ss q)) as [Iz|Nz]; [|apply expo_notin; exact Nz].
      assert (X1 : expo U ts z = expo (s_ss q) (expsI q ki) z) by (unfold ts, spread; rewrite expo_map; destruct (in_dec string_dec z U) as [_|N]; [reflexivity|elim N; apply IQ; exact Iz]).
      assert (X2 : expo U ts z = expo (s_ss q0) (keep sm (s_ss q0) (expsI q0 k1)) z) by (rewrite <- E2; unfold spread; rewrite expo_map; destruct (in_dec string_dec z U) as [_|N]; [reflexivity|elim N; apply IQ; exact Iz]).
      rewrite <- X1, X2. apply KZ. }
  pose proof (lw_nonzero _ _ _ _ (rw_lwf _ _ _ _ _ _ _ _ Wr) k (Ok q) J) as NE. cbn [c_is_zero rec_cf] in NE.
  destruct (terms q) as [|[ki c] l] eqn:ET; [apply empty_terms in ET; congruence|]. split; [apply (G ki c); left; reflexivity|]. intros k2 c2 I2. apply (G k2 c2 I2).
Qed.

Section Val.
Context {V : Type} (vzero vone : V) (va vm vs_ : V -> V -> V) (vo : V -> V) (VR : ring_theory vzero vone va vm vs_ vo (@eq V)) (pv : V -> Z -> V) (h : C -> V).
Hypothesis h0 : h 0c = vzero.
Hypothesis hone : h 1c = vone.
Hypothesis h1 : forall a b, h (a +c b) = va (h a) (h b).
Hypothesis hm : forall a b, h (a *c b) = vm (h a) (h b).
Add Ring Vring10 : VR.
(** C96. Evaluating the result at m is evaluating x at m overridden by the substituted values, in every commutative ring. *)
Theorem rec_subs_value : forall (f : A -> V) (x r : outer) (sm : symbol_map A) (m mc : symbol_map V), RWF U x -> sorted_set U -> sorted_set (map fst sm) -> Z.of_nat (len (s_ss x) + len (s_ss x)) <= imax size_t ->
  powers_exist KS vpow pw sm x -> (forall k q, In (k, Ok q) (terms x) -> powers_exist KSI vpow pw sm q) ->
  rec_subs KO TO KOI CO POI TOI EI PO vpow x sm = Ok r ->
  sorted_set (map fst m) -> overridden f sm m mc -> pow0 vone pv m -> (forall z u, In (z, u) sm -> forall e, h (pw u e) = pv (f u) e) ->
  value2 KS KSI vzero vone va vm pv h m r = value2 KS KSI vzero vone va vm pv h mc x.
Proof.
  intros f x r sm m mc W SU Hm SZ PE PI ER Sm OV P0 HP.
  destruct (rec_subs_exact x sm W Hm SZ PE PI) as [(r' & ER' & Wr & SS & SM)|[[X|X] _]]; [|congruence|congruence]. assert (r' = r) by congruence. subst r'.
  pose proof (wf_ss _ _ _ _ (lw_wf _ _ _ _ (rw_lwf _ _ _ _ _ _ _ _ W))) as Hs. assert (NDm : NoDup (map fst sm)) by (apply sorted_set_nodup; exact Hm).
  assert (IR : incl (s_ss r) (s_ss x)) by (destruct SS as [->|[_ ->]]; [apply incl_refl|intros z []]).
  rewrite (value2_lin KO KS KOI KSI CO POI TOI EI vzero vone va vm vs_ vo VR (fun _ _ => Base.UB) pv h h0 U m (s_ss x) U r Wr Hs IR SU (incl_refl _) Sm P0).
  set (L := flat_map (fun e : K * res inner => match snd e with
    | Ok q => map (fun g => ((spread (s_ss x) (s_ss x) (keep sm (s_ss x) (exps x (fst e))), spread (s_ss q) U (keep sm (s_ss q) (expsI q (fst g)))), weight sm (s_ss x) (exps x (fst e)) *c weight sm (s_ss q) (expsI q (fst g)) *c snd g)) (terms q)
    | _ => [] end) (terms x)).
  rewrite (lin_ext CO vzero vone va vm vs_ vo VR pdec h h0 h1 _ _ L).
  2:{ intros a. rewrite <- (coef2_psum KS KSI CO (s_ss x) U r a), (SM (s_ss x) U (fst a) (snd a) (conj Hs (incl_refl _)) SU (incl_refl _)). unfold RecSubsSpec.subs2, L, psum. clear L. generalize (terms x) as l0. induction l0 as [|[k c] l IH]; [reflexivity|].
    cbn [flat_map fst snd]. rewrite filter_app, map_app, !(csum_app CO CL). f_equal; [|exact IH]. destruct c as [q| |]; [|reflexivity..].
    induction (terms q) as [|[ki c] t IHt]; [reflexivity|]. cbn [map filter fst snd]. unfold contribution at 1. destruct a as [wa ta]. cbn [fst snd]. unfold eqb at 1. cbn [csum fold_right].
    match goal with |- _ +c ?X = _ => change X with (csum CO (map (fun f0 => contribution CO pw sm (s_ss x) U (s_ss x) (s_ss q) (exps x k) (expsI q (fst f0)) (snd f0) wa ta) t)) end. cbn [fst snd] in IHt. rewrite IHt. unfold vec_eqb.
    destruct (pdec _ (wa, ta)) as [EP|NP].
    - apply (f_equal fst) in EP as EP1. apply (f_equal snd) in EP as EP2. cbn [fst snd] in EP1, EP2. destruct (list_eq_dec _ _ wa); [|congruence]. destruct (list_eq_dec _ _ ta); [|congruence]. reflexivity.
    - destruct (list_eq_dec _ _ wa), (list_eq_dec _ _ ta); [congruence|..]; cbn [andb]; ring. }
  unfold L, value2. clear L.
  assert (G : forall l, incl l (terms x) -> lin vzero va vm h (P_Rec4.weight vone vm pv m (s_ss x) U) (flat_map (fun e : K * res inner => match snd e with
    | Ok q => map (fun g => ((spread (s_ss x) (s_ss x) (keep sm (s_ss x) (exps x (fst e))), spread (s_ss q) U (keep sm (s_ss q) (expsI q (fst g)))), weight sm (s_ss x) (exps x (fst e)) *c weight sm (s_ss q) (expsI q (fst g)) *c snd g)) (terms q)
    | _ => [] end) l) = fold_right va vzero (map (fun e => match snd e with Ok q => vm (value KSI vzero vone va vm pv h mc q) (mono vone vm pv mc (s_ss x) (exps x (fst e)) (s_ss x)) | _ => vzero end) l)).
  { induction l as [|[k c] l IH]; intros IL; [reflexivity|]. cbn [flat_map map fold_right fst snd]. rewrite (lin_app vzero vone va vm vs_ vo VR h), IH by (intros e I; apply IL; right; exact I). f_equal. clear IH.
    destruct (rw_inner _ _ _ _ _ _ _ _ W k c (IL _ (or_introl eq_refl))) as (q & -> & WQ & IQ). pose proof (wf_ss _ _ _ _ WQ) as HQ. unfold value.
    rewrite spread_self by (try apply sorted_set_nodup; auto; apply keep_len).
    rewrite (mono_override vzero vone va vm vs_ vo VR pv f sm m mc (s_ss x) (exps x k)) by (auto; apply sorted_set_nodup; auto).
    induction (terms q) as [|[ki c] t IHt]; cbn [map lin fold_right fst snd]; [ring|]. rewrite IHt. unfold P_Rec4.weight. cbn [fst snd]. rewrite !hm.
    rewrite !(h_mono CO vone vm pv h hone hm pw f sm) by auto.
    rewrite (mono_override vzero vone va vm vs_ vo VR pv f sm m mc (s_ss q) (expsI q ki)) by (auto; apply sorted_set_nodup; auto).
    assert (MM : mono vone vm pv m U (spread (s_ss q) U (keep sm (s_ss q) (expsI q ki))) U = mono vone vm pv m (s_ss q) (keep sm (s_ss q) (expsI q ki)) (s_ss q)).
    { rewrite (mono_spread vone vm pv m (s_ss q) U _ IQ (sorted_set_nodup _ SU)). apply (mono_more CO vzero vone va vm vs_ vo VR (fun _ _ => Base.UB) pv h h0); auto; apply sorted_set_nodup; auto. }
    rewrite MM. ring. }
  apply G, incl_refl.
Qed.
End Val.
End U.
End R.
Print Assumptions rec_subs_exact.
Print Assumptions rec_subs_removes.
Print Assumptions rec_subs_value.

(** * The hypotheses are met: in (x + y^2) a + (x - 3) b^2, a := 2 and x := 5 give 2 y^2 + 10 + 2 b^2; a symbol of the monomials and one of the coefficients *)
Definition sax : symbol_map Z := [("a", 2); ("x", 5)]%string.
Definition zpw (u e : Z) : Z := u ^ e.
Definition zvpow (u e : Z) : res Z := if 0 <=? e then Ok (u ^ e) else Throw out_of_range.
Lemma sax_powers : powers_exist exS zvpow zpw sax rx /\ (forall k q, In (k, Ok q) (terms rx) -> powers_exist exS zvpow zpw sax q).
Proof.
  assert (PW : forall e, 0 <= e -> forall u, zvpow u e = Ok (zpw u e)) by (intros e E u; unfold zvpow; replace (0 <=? e) with true by (symmetry; apply Z.leb_le; exact E); reflexivity).
  split.
  - intros z v k c I J _. apply PW. revert z v k c I J. enough (E : forallb (fun zv => forallb (fun kc => 0 <=? expo (s_ss rx) (ks_exps exS (len (s_ss rx)) (fst kc)) (fst zv)) (terms rx)) sax = true).
    { intros z v k c I J. rewrite forallb_forall in E. specialize (E (z, v) I). rewrite forallb_forall in E. specialize (E (k, c) J). apply Z.leb_le. exact E. }
    vm_compute. reflexivity.
  - intros k0 q J0 z v k c I J _. apply PW. revert k0 q J0 z v k c I J.
    enough (E : forallb (fun kq => match snd kq with Ok q => forallb (fun zv => forallb (fun kc => 0 <=? expo (s_ss q) (ks_exps exS (len (s_ss q)) (fst kc)) (fst zv)) (terms q)) sax | _ => true end) (terms rx) = true).
    { intros k0 q J0 z v k c I J. rewrite forallb_forall in E. specialize (E (k0, Ok q) J0). cbn [snd] in E. rewrite forallb_forall in E. specialize (E (z, v) I). rewrite forallb_forall in E. specialize (E (k, c) J). apply Z.leb_le. exact E. }
    vm_compute. reflexivity.
Qed.
Definition rsub := rec_subs exK Z_tag exK Z_cf exP Z_tag rI rP zvpow rx sax.
Example ex_rec_subs_hyps : rwf exK exS (rec_cf exK Z_cf exP Z_tag rI) exK exS Z_cf xy rx /\ sorted_set xy /\ sorted_set (map fst sax) /\ Z.of_nat (len (s_ss rx) + len (s_ss rx)) <= imax size_t /\ Z.of_nat (len xy + len xy) <= imax size_t.
Proof. split; [apply rx_rwf|]. split; [repeat constructor|]. split; [repeat constructor|]. split; vm_compute; discriminate. Qed.
Example ex_rec_subs : exists r, rsub = Ok r /\ len (terms r) = 2%nat /\
  coef2 exS exS Z_cf ["a"; "b"]%string xy r [0; 0] [0; 2] = 2 /\ coef2 exS exS Z_cf ["a"; "b"]%string xy r [0; 0] [0; 0] = 10 /\ coef2 exS exS Z_cf ["a"; "b"]%string xy r [0; 2] [0; 0] = 2 /\
  RecSubsSpec.subs2 exS exS Z_cf zpw sax ["a"; "b"]%string xy (s_ss rx) (terms rx) [0; 0] [0; 0] = 10.
Proof. eexists. split; [vm_compute; reflexivity|]. split; [vm_compute; reflexivity|]. split; [vm_compute; reflexivity|]. split; [vm_compute; reflexivity|]. split; vm_compute; reflexivity. Qed.
