(** Property C75: differentiation and integration of polynomials with polynomial coefficients.  Vocabulary: RecSpec.v ([coef2]: coefficients of monomials in the outer and
    inner symbols), CalcSpec.v ([bump us s n ws]: n added to the exponent of s). *)
From Coq Require Import ZArith List Bool String Arith Lia Permutation Sorted Ring Ring_theory QArith Qcanon.
From Verif Require Import Base IntModel KpackModel KpackSpec KpackProofs P_Kpack SymSpec SymModel SymProofs P_Sym PMonSpec PMonModel PMonProofs PMonProofs2 P_PMon KeyOps KeyInst SeriesModel SeriesModel2 SeriesSpec PolyModel PolyModel2 PolySpec PolyProofs PolyProofs2
  SeriesProofs SeriesProofs2 SeriesProofs3 SeriesProofs4 SeriesProofs5 SeriesProofs6 SeriesProofs7 SeriesEval CfInst P_Series P_Series2 P_Poly P_Poly2 CalcSpec PowProofs2 DiffProofs IntegProofs P_Calc P_Inv PolyProofs5 PolyProofs6 PolyProofs7 LfSpec LfProofs LfProofs2 LfProofs3 LfProofs4 P_Lf RecModel RecModel3 RecSpec RecProofs P_Rec RecProofs2.
Import ListNotations.
Close Scope Qc_scope.
Close Scope Q_scope.
Open Scope Z_scope.
Open Scope res_scope.
Local Notation len := List.length.

Section R.
Context {K Tag KI C TagI : Type} (KO : key_ops K) (KS : key_sem K) (TO : tag_ops Tag)
  (KOI : key_ops KI) (KSI : key_sem KI) (CO : cf_ops C) (POI : tbl_policy (KI * C)) (TOI : tag_ops TagI) (EI : mul_env KI C TagI) (PO : tbl_policy (K * res (series KI C TagI))).
Hypothesis KL : key_laws KO KS.
Hypothesis KLI : key_laws KOI KSI.
Hypothesis CL : cf_laws CO.
Notation inner := (series KI C TagI).
Notation outer := (series K (res inner) Tag).
Notation RC := (rec_cf KOI CO POI TOI EI).
Notation "0c" := (c_zero CO).
Notation "a +c b" := (c_add CO a b) (at level 50, left associativity).
Notation "a *c b" := (c_mul CO a b) (at level 40, left associativity).
Notation RWF := (rwf KO KS RC KOI KSI CO).
Notation coef2 := (coef2 KS KSI CO).
Notation g := (g KSI CO).
Notation okc := (okc KOI KSI CO).
Notation okc' := (okc' KOI KSI CO).
Notation filled2 := (filled2 KO KS KOI KSI CO POI TOI EI).
Notation part := (part KS).
Notation total := (total KSI CO).
Notation exps x k := (ks_exps KS (len (s_ss x)) k).
Add Ring CringR3 : (cl_ring _ CL).
Variables (cz : Z -> C) (cdiv : C -> Z -> res C).
Hypothesis CZ : int_embedding CO cz.
Hypothesis CD : exact_division CO cz cdiv.
Notation rec_diff := (rec_diff KO TO KOI CO POI TOI EI PO cz).
Notation rec_integrate := (rec_integrate KO TO KOI CO POI TOI EI PO cz cdiv).
Notation cf_diff := (cf_diff KOI CO POI TOI cz).
Notation cf_mul_exp := (cf_mul_exp KOI CO cz).

Section U.
Variable U : symbol_set.
Hypothesis UB : Z.of_nat (len U + len U) <= imax size_t.

Lemma start2 (x : outer) : RWF U x ->
  exists r0, (retval <- set_symbol_set (series_default TO : outer) (s_ss x) ;; set_n_segments (set_tag retval (s_tag x)) (get_s_size x)) = Ok r0 /\ filled2 U x r0 [].
Proof.
  intros W. pose proof (lw_wf _ _ _ _ (rw_lwf _ _ _ _ _ _ _ _ W)) as W0. unfold set_symbol_set. change (series_empty (series_default TO)) with true. cbn iota. cbn [bind]. unfold set_tag, get_s_size. cbn [s_tables s_log2 s_ss series_default].
  destruct (set_n_segments_ok KO KS RC (Series [[]] 0 (s_tag x) (s_ss x)) (s_log2 x) (wf_log2 _ _ _ _ W0) (wf_ss _ _ _ _ W0)) as [E W1]. cbn [s_tag s_ss] in *. eexists. split; [exact E|].
  assert (T : terms (Series (repeat [] (2 ^ s_log2 x)) (s_log2 x) (s_tag x) (s_ss x) : outer) = []). { unfold terms. cbn [s_tables]. generalize (2 ^ s_log2 x)%nat as n. induction n as [|n IH]; [reflexivity|]. cbn [repeat List.concat app]. exact IH. }
  constructor.
  - constructor; [exact W1|]. intros k c I. rewrite T in I. destruct I.
  - repeat split.
  - rewrite T. cbn. lia.
  - intros k c I. rewrite T in I. destruct I.
  - intros _. split; [intros k c []|]. intros us vs ws ts _ _. rewrite coef2_sum by exact CL. rewrite T. reflexivity.
Qed.

Lemma cf_diff_ok (c : res inner) s : okc U c -> okc' U (cf_diff c s) /\
  ((exists d, cf_diff c s = Ok d) -> forall vs ts, sorted_set vs -> incl U vs -> In s vs -> len ts = len vs -> g vs ts (cf_diff c s) = cz (expo vs ts s + 1) *c g vs (bump vs s 1 ts) c).
Proof.
  intros (q & -> & W & I). unfold RecModel3.cf_diff. cbn [bind]. destruct (diff_exact KOI KSI CO POI TOI KLI CL cz CZ q s W) as [(r & E & WR & S1 & _ & _ & H)|[E _]]; rewrite E.
  - split; [left; exists r; rewrite S1; auto|]. intros _ vs ts SV IV IS L. cbn [RecProofs.g]. apply H; auto. split; [exact SV|]. intros z Iz. auto.
  - split; [right; left; reflexivity|]. intros (d & Hd). discriminate.
Qed.
Lemma cf_mul_ok (c : res inner) n : okc U c -> okc U (cf_mul_exp c n) /\ forall vs ts, g vs ts (cf_mul_exp c n) = g vs ts c *c cz n.
Proof.
  intros (q & -> & W & I). unfold RecModel3.cf_mul_exp. cbn [bind]. destruct (scalar_mul_exact KOI KSI CO KLI CL q (cz n) W) as (W' & S1 & _ & H & _). split; [exists (series_scalar_mul KOI CO q (cz n)); rewrite S1; auto|]. intros vs ts. cbn [RecProofs.g]. apply H.
Qed.

Lemma total_app vs ts (l l' : list (res inner)) : total vs ts (l ++ l') = total vs ts l +c total vs ts l'.
Proof. unfold RecProofs2.total. rewrite map_app. apply (csum_app CO CL). Qed.
Lemma part_app us ss ws (l l' : list (K * res inner)) : part us ss ws (l ++ l') = part us ss ws l ++ part us ss ws l'.
Proof. unfold RecProofs2.part. rewrite filter_app, map_app. reflexivity. Qed.
Lemma total_one us ss ws vs ts k (c : res inner) : total vs ts (part us ss ws [(k, c)]) = if vec_eqb (spread ss us (ks_exps KS (len ss) k)) ws then g vs ts c else 0c.
Proof. unfold RecProofs2.total, RecProofs2.part. cbn [filter fst]. destruct (vec_eqb _ ws); cbn; ring. Qed.

(** The contribution of a term to the derivative. *)
Definition dd (x : outer) (s : string) us vs ws ts (e : K * res inner) : C :=
  cz (expo us ws s + 1) *c (if vec_eqb (spread (s_ss x) us (exps x (fst e))) (bump us s 1 ws) then g vs ts (snd e) else 0c) +c
  cz (expo vs ts s + 1) *c (if vec_eqb (spread (s_ss x) us (exps x (fst e))) ws then g vs (bump vs s 1 ts) (snd e) else 0c).
Lemma dd_sum (x : outer) s us vs ws ts : csum CO (map (dd x s us vs ws ts) (terms x)) = cz (expo us ws s + 1) *c coef2 us vs x (bump us s 1 ws) ts +c cz (expo vs ts s + 1) *c coef2 us vs x ws (bump vs s 1 ts).
Proof.
  rewrite !coef2_sum by exact CL. induction (terms x) as [|e l IH]; [cbn; ring|]. cbn [map csum fold_right]. fold (csum CO (map (dd x s us vs ws ts) l)). rewrite IH. cbn [filter]. unfold dd. destruct (vec_eqb _ (bump us s 1 ws)), (vec_eqb _ ws); cbn [map csum fold_right]; unfold csum; ring.
Qed.

Definition scope (x : outer) (s : string) us vs (ws ts : list Z) : Prop := sorted_set us /\ sorted_set vs /\ incl (s_ss x) us /\ incl U vs /\ In s us /\ In s vs /\ len ws = len us /\ len ts = len vs.

Lemma outer_part (x : outer) s us vs ws ts k (c : res inner) (n : Z) : scope x s us vs ws ts -> NoDup (s_ss x) -> len (exps x k) = len (s_ss x) -> n = expo (s_ss x) (exps x k) s ->
  (if vec_eqb (bump us s (-1) (spread (s_ss x) us (exps x k))) ws then g vs ts c *c cz n else 0c) = cz (expo us ws s + 1) *c (if vec_eqb (spread (s_ss x) us (exps x k)) (bump us s 1 ws) then g vs ts c else 0c).
Proof.
  intros (SU & SV & IU & IV & IS & ISV & L1 & L2) ND LE ->. rewrite vec_eqb_bump by (auto; unfold spread; rewrite map_length; reflexivity). change (- -1) with 1. destruct (vec_eqb _ (bump us s 1 ws)) eqn:EV; [|ring].
  apply vec_eqb_iff in EV. rewrite <- (expo_spread' (s_ss x) us (exps x k) s IU (sorted_set_nodup _ SU)), EV, expo_bump by exact L1. rewrite String.eqb_refl. destruct (in_dec string_dec s us); [ring|contradiction].
Qed.
Lemma outer_zero (x : outer) s us vs ws ts k (c : res inner) : scope x s us vs ws ts -> expo (s_ss x) (exps x k) s = 0 ->
  cz (expo us ws s + 1) *c (if vec_eqb (spread (s_ss x) us (exps x k)) (bump us s 1 ws) then g vs ts c else 0c) = 0c.
Proof.
  intros (SU & SV & IU & IV & IS & ISV & L1 & L2) Z0. destruct (vec_eqb _ (bump us s 1 ws)) eqn:EV; [|ring].
  apply vec_eqb_iff in EV. rewrite <- (expo_spread' (s_ss x) us (exps x k) s IU (sorted_set_nodup _ SU)), EV, expo_bump in Z0 by exact L1. rewrite String.eqb_refl in Z0. destruct (in_dec string_dec s us); [|contradiction]. rewrite Z0, (ie_zero _ _ CZ). ring.
Qed.

Lemma diff2 (x : outer) s : RWF U x ->
  (exists r L, rec_diff x s = Ok r /\ filled2 U x r L /\ ((forall k c, In (k, c) L -> exists q, c = Ok q) -> forall us vs ws ts, scope x s us vs ws ts -> total vs ts (part us (s_ss x) ws L) = csum CO (map (dd x s us vs ws ts) (terms x)))) \/
  (rec_diff x s = Throw overflow_error /\ (diff_unrep KS x s \/ full (s_log2 x) (2 * len (terms x)))).
Proof.
  intros W. pose proof (lw_wf _ _ _ _ (rw_lwf _ _ _ _ _ _ _ _ W)) as W0. unfold RecModel3.rec_diff. destruct (start2 x W) as (r0 & ES & FS). cbv zeta.
  match goal with |- context [rfold ?f _ _] => set (step := f) end.
  assert (X : (retval <- set_symbol_set (series_default TO : outer) (s_ss x) ;; retval0 <- set_n_segments (set_tag retval (s_tag x)) (get_s_size x) ;; rfold step (terms x) retval0) =
     (retval <- (retval <- set_symbol_set (series_default TO : outer) (s_ss x) ;; set_n_segments (set_tag retval (s_tag x)) (get_s_size x)) ;; rfold step (terms x) retval)).
  { destruct (set_symbol_set (series_default TO) (s_ss x)); reflexivity. }
  rewrite X, ES. cbn [bind]. clear X ES.
  assert (NDs : NoDup (s_ss x)) by (apply sorted_set_nodup, (wf_ss _ _ _ _ W0)).
  set (Bad := fun q : res outer => q = Throw overflow_error /\ (diff_unrep KS x s \/ full (s_log2 x) (2 * len (terms x)))).
  set (Inv := fun (done : list (K * res inner)) (r : outer) => exists L, filled2 U x r L /\ (len L <= 2 * len done)%nat /\ ((forall k c, In (k, c) L -> exists q, c = Ok q) -> forall us vs ws ts, scope x s us vs ws ts -> total vs ts (part us (s_ss x) ws L) = csum CO (map (dd x s us vs ws ts) done))).
  destruct (rfold_inv step Inv Bad) with (l := terms x) (pre := @nil (K * res inner)) (b := r0) as [(r & E & (L & FL & _ & HL))|HB].
  - intros b [X _]. discriminate.
  - exists []. split; [exact FS|]. split; [cbn; lia|]. intros _ us vs ws ts _. reflexivity.
  - cbn [app]. intros p r [k c] q EQ (L & FL & NL & HL). assert (I : In (k, c) (terms x)) by (rewrite EQ; apply in_or_app; right; left; reflexivity).
    assert (LT : (S (len p) <= len (terms x))%nat) by (rewrite EQ, app_length; cbn; lia). pose proof (rw_inner _ _ _ _ _ _ _ _ W k c I) as OC. change (okc U c) in OC.
    pose proof (wf_valid _ _ _ _ W0 k c I) as V. unfold step. cbn [fst snd]. assert (LE : len (exps x k) = len (s_ss x)) by (apply (kl_len _ _ KL); exact V).
    assert (FULL : forall n, (n <= S (2 * len p))%nat -> full (s_log2 x) n -> full (s_log2 x) (2 * len (terms x))) by (intros n Ln [F1 F2]; split; [exact F1|]; eapply Z.le_trans; [exact F2|]; apply Nat2Z.inj_le; lia).
    destruct (cf_diff_ok c s OC) as [OD HD].
    destruct (add2 KO KS KOI KSI CO POI TOI EI PO KL KLI CL U UB x r L k (cf_diff c s) FL V OD) as [(r1 & E1 & FL1)|[E1 F1]]; [|right; rewrite E1; split; [reflexivity|]; right; apply (FULL (len L)); [lia|exact F1]]. rewrite E1. cbn [bind].
    destruct (in_dec string_dec s (s_ss x)) as [IS|IS].
    + destruct (index_some s (s_ss x) IS) as [EX0 LI]. assert (negb (Nat.eqb (ss_index (s_ss x) s) (len (s_ss x))) = true) as -> by (apply negb_true_iff, Nat.eqb_neq; lia).
      destruct (kl_diff _ _ KL k (s_ss x) (ss_index (s_ss x) s) V LI) as (D0 & D1 & D2).
      assert (EX : nth (ss_index (s_ss x) s) (exps x k) 0 = expo (s_ss x) (exps x k) s) by (symmetry; eapply expo_nth; eauto; apply nth_error_nth'; rewrite LE; exact LI).
      assert (SA : set_at (ss_index (s_ss x) s) (nth (ss_index (s_ss x) s) (exps x k) 0 - 1) (exps x k) = bump (s_ss x) s (-1) (exps x k)).
      { pose proof (spread_set_at (s_ss x) (s_ss x) (ss_index (s_ss x) s) (-1) (exps x k) s NDs LE EX0) as H. rewrite !spread_self in H; auto. unfold set_at. rewrite app_length, firstn_length. cbn [List.length]. rewrite skipn_length. lia. }
      assert (FIN : forall k' n, ks_valid KS (len (s_ss x)) k' -> n = expo (s_ss x) (exps x k) s -> (n = 0 \/ forall us, spread (s_ss x) us (ks_exps KS (len (s_ss x)) k') = bump us s (-1) (spread (s_ss x) us (exps x k))) ->
        (exists b', add_term KO RC PO true r1 k' (cf_mul_exp c n) = Ok b' /\ Inv (p ++ [(k, c)]) b') \/ Bad (add_term KO RC PO true r1 k' (cf_mul_exp c n))).
      { intros k' n V' EN SP. destruct (cf_mul_ok c n OC) as [OM HM]. destruct (add2 KO KS KOI KSI CO POI TOI EI PO KL KLI CL U UB x r1 _ k' (cf_mul_exp c n) FL1 V' (or_introl OM)) as [(r2 & E2 & FL2)|[E2 F2]].
        - left. exists r2. split; [exact E2|]. eexists. split; [exact FL2|]. split; [rewrite !app_length; cbn [List.length]; lia|]. intros ALL us vs ws ts SC. rewrite !part_app, !total_app, map_app, (csum_app CO CL). rewrite HL; [|intros k0 c0 J; apply (ALL k0 c0); apply in_or_app; left; apply in_or_app; auto|exact SC].
          rewrite !total_one. cbn [map csum fold_right]. unfold dd at 3. cbn [fst snd]. pose proof SC as (SU & SV & IU & IV & ISU & ISV & L1 & L2).
          rewrite HM. rewrite (HD ltac:(apply (ALL k); apply in_or_app; left; apply in_or_app; right; left; reflexivity) vs ts) by assumption.
          destruct SP as [-> | SP].
          + rewrite (outer_zero x s us vs ws ts k c SC) by auto. rewrite (ie_zero _ _ CZ). destruct (vec_eqb (spread (s_ss x) us (exps x k)) ws), (vec_eqb (spread (s_ss x) us (ks_exps KS (len (s_ss x)) k')) ws); ring.
          + rewrite SP, (outer_part x s us vs ws ts k c n SC NDs LE EN). destruct (vec_eqb (spread (s_ss x) us (exps x k)) ws); ring.
        - right. split; [exact E2|]. right. apply (FULL (len (L ++ [(k, cf_diff c s)]))); [rewrite app_length; cbn [List.length]; lia|exact F2]. }
      rewrite SA, EX in *. destruct (Z.eq_dec (expo (s_ss x) (exps x k) s) 0) as [Z0|NZ].
      * rewrite (D0 Z0). cbn [bind]. apply FIN; auto.
      * destruct (kl_fits_dec _ _ KL (bump (s_ss x) s (-1) (exps x k))) as [F|F].
        -- destruct (D1 NZ F) as (k' & EK & V' & EX'). rewrite EK. cbn [bind]. apply FIN; auto. right. intros us. rewrite EX', <- SA, <- EX. replace (nth (ss_index (s_ss x) s) (exps x k) 0 - 1) with (nth (ss_index (s_ss x) s) (exps x k) 0 + -1) by lia. apply (spread_set_at (s_ss x) us _ (-1) _ s NDs LE EX0).
        -- rewrite (D2 NZ F). right. split; [reflexivity|]. left. exists k, c. auto.
    + rewrite (index_none s _ IS), Nat.eqb_refl. cbn [negb]. left. exists r1. split; [reflexivity|]. eexists. split; [exact FL1|]. split; [rewrite !app_length; cbn [List.length]; lia|].
      intros ALL us vs ws ts SC. rewrite part_app, total_app, map_app, (csum_app CO CL). rewrite HL; [|intros k0 c0 J; apply (ALL k0 c0); apply in_or_app; auto|exact SC]. rewrite total_one. cbn [map csum fold_right]. unfold dd at 3. cbn [fst snd].
      pose proof SC as (SU & SV & IU & IV & ISU & ISV & L1 & L2). rewrite (HD ltac:(apply (ALL k); apply in_or_app; right; left; reflexivity) vs ts) by assumption. rewrite (outer_zero x s us vs ws ts k c SC) by (apply expo_notin; exact IS). destruct (vec_eqb _ ws); ring.
  - left. exists r, L. split; [exact E|]. split; [exact FL|exact HL].
  - right. exact HB.
Qed.

(** C75. The derivative with respect to s: s is a symbol of the keys, of the coefficients, of both or of none. *)
Theorem rec_diff_exact : forall (x : outer) s, RWF U x -> let out := rec_diff x s in
  (exists r, settle out = Ok r /\ RWF U r /\ s_ss r = s_ss x /\ s_tag r = s_tag x /\ s_log2 r = s_log2 x /\
    forall us vs ws ts, scope x s us vs ws ts ->
      coef2 us vs r ws ts = cz (expo us ws s + 1) *c coef2 us vs x (bump us s 1 ws) ts +c cz (expo vs ts s + 1) *c coef2 us vs x ws (bump vs s 1 ts)) \/
  (key_overflow (settle out) /\ (coefficient_throws out \/ diff_unrep KS x s \/ full (s_log2 x) (2 * len (terms x)))).
Proof.
  intros x s W out. destruct (diff2 x s W) as [(r & L & E & [F1 (M1 & M2 & M3) _ F4 F5] & HL)|[E H]]; fold out in E; rewrite E.
  - destruct (settle_spec r) as [[S N]|[S N]]; [intros k c I; destruct (F4 k c I) as [(q & -> & _)|B]; eauto| |right; auto]. left. exists r. split; [exact S|]. destruct (F5 N) as [A1 A2].
    split; [constructor; [exact F1|]; intros k c I; destruct (F4 k c I) as [O|B]; [exact O|]; destruct (N k c I) as (q & ->); destruct B; discriminate|].
    split; [exact M1|]. split; [exact M2|]. split; [exact M3|]. intros us vs ws ts SC. rewrite <- dd_sum, <- (HL A1 us vs ws ts SC). apply A2; apply SC.
  - right. split; [left; reflexivity|auto].
Qed.
(** * Integration *)
Notation cf_div_exp := (cf_div_exp CO cdiv).
(** Some term of the coefficient q has a nonzero derivative with respect to s. *)
Definition depends (q : inner) (s : string) : Prop := exists k c, In (k, c) (terms q) /\ cz (expo (s_ss q) (ks_exps KSI (len (s_ss q)) k) s) *c c <> 0c.
Definition coef_depends (x : outer) (s : string) : Prop := exists k q, In (k, Ok q) (terms x) /\ depends q s.
(** The derivative of some coefficient does not fit. *)
Definition coef_diff_unrep (x : outer) (s : string) : Prop := exists k q, In (k, Ok q) (terms x) /\ (diff_unrep KSI q s \/ full (s_log2 q) (2 * len (terms q))).

Lemma cf_div_ok (c : res inner) n : okc U c -> n <> 0 -> okc U (cf_div_exp c n) /\ forall vs ts, sorted_set vs -> incl U vs -> g vs ts (cf_div_exp c n) *c cz n = g vs ts c.
Proof.
  intros (q & -> & W & I) N. unfold RecModel3.cf_div_exp. cbn [bind].
  destruct (scalar_div_exact KOI KSI CO CL Z cdiv q n W) as [(r & E & WR & S1 & _ & _ & HT & HA)|(k & c & _ & [(e & X & _)|[X _]])]; [|destruct (CD c n N) as (q0 & Y & _); congruence|destruct (CD c n N) as (q0 & Y & _); congruence].
  rewrite E. split; [exists r; rewrite S1; auto|]. intros vs ts SV IV. cbn [RecProofs.g].
  assert (CV : covers vs q) by (split; [exact SV|]; intros z J; auto). assert (CV' : covers vs r) by (split; [exact SV|]; rewrite S1; apply CV).
  destruct (find (fun e => vec_eqb (spread (s_ss q) vs (ks_exps KSI (len (s_ss q)) (fst e))) ts) (terms q)) as [[k c]|] eqn:EF.
  - apply List.find_some in EF as [J EV]. cbn [fst] in EV. apply vec_eqb_iff in EV. rewrite <- EV. rewrite (coef_term KOI KSI CO KLI CL vs q k c W CV J). destruct (CD c n N) as (d & ED & HD).
    assert (ND : d <> 0c). { intros ->. apply (wf_nonzero _ _ _ _ W k c J). rewrite <- HD. ring. }
    assert (JR : In (k, d) (terms r)) by (apply HT; split; [exact ND|]; eauto). pose proof (coef_term KOI KSI CO KLI CL vs r k d WR CV' JR) as X. rewrite S1 in X. rewrite X. exact HD.
  - assert (NO : forall k c, In (k, c) (terms q) -> spread (s_ss q) vs (ks_exps KSI (len (s_ss q)) k) <> ts). { intros k c J X. pose proof (List.find_none _ _ EF (k, c) J) as Y. cbn [fst] in Y. apply vec_eqb_iff in X. congruence. }
    rewrite (coef_zero KSI CO CL vs q ts NO). rewrite (coef_zero KSI CO CL vs r ts); [ring|]. intros k d J. apply HT in J as (_ & c & J & _). rewrite S1. eauto.
Qed.

Lemma cf_diff_zero (q d : inner) s : wf KOI KSI CO q -> poly_diff KOI CO POI TOI cz q s = Ok d -> (series_empty d = true -> ~ depends q s) /\ (series_empty d = false -> depends q s).
Proof.
  intros W ED. destruct (diff_exact KOI KSI CO POI TOI KLI CL cz CZ q s W) as [(r & E & WR & S1 & _ & NIL & H)|[E _]]; [|congruence]. assert (r = d) by congruence. subst r. pose proof (wf_ss _ _ _ _ W) as SQ.
  assert (CV : covers (s_ss q) q) by (split; [exact SQ|apply incl_refl]). assert (CD' : covers (s_ss q) d) by (split; [exact SQ|]; rewrite S1; apply incl_refl).
  assert (LQ : forall k c, In (k, c) (terms q) -> len (ks_exps KSI (len (s_ss q)) k) = len (s_ss q)) by (intros k c J; apply (kl_len _ _ KLI), (wf_valid _ _ _ _ W k c J)).
  assert (LD : forall k c, In (k, c) (terms d) -> len (ks_exps KSI (len (s_ss q)) k) = len (s_ss q)) by (intros k c J; apply (kl_len _ _ KLI); rewrite <- S1; apply (wf_valid _ _ _ _ WR k c J)).
  pose proof (sorted_set_nodup _ SQ) as NDQ.
  destruct (in_dec string_dec s (s_ss q)) as [IS|IS].
  - split.
    + intros ET (k & c & J & N). apply N. apply empty_terms in ET. specialize (LQ k c J). set (es := ks_exps KSI (len (s_ss q)) k) in *. assert (LB : len (bump (s_ss q) s (-1) es) = len (s_ss q)) by (apply bump_len; exact LQ).
      pose proof (H (s_ss q) (bump (s_ss q) s (-1) es) CV IS LB) as X. rewrite expo_bump, bump_add in X by exact LQ. rewrite String.eqb_refl in X. destruct (in_dec string_dec s (s_ss q)); [|contradiction]. replace (-1 + 1) with 0 in X by lia. rewrite bump_0 in X by exact LQ.
      replace (expo (s_ss q) es s + -1 + 1) with (expo (s_ss q) es s) in X by lia. pose proof (coef_term KOI KSI CO KLI CL (s_ss q) q k c W CV J) as CT. rewrite spread_self in CT by auto. fold es in CT. rewrite CT in X. rewrite <- X. apply (coef_zero KSI CO CL). rewrite ET. intros ? ? [].
    + intros NE. destruct (terms d) as [|[k c] l] eqn:ET; [apply empty_terms in ET; congruence|]. assert (J : In (k, c) (terms d)) by (rewrite ET; left; reflexivity). rewrite <- ET in *. specialize (LD k c J). set (es := ks_exps KSI (len (s_ss q)) k) in *.
      pose proof (coef_term KOI KSI CO KLI CL (s_ss q) d k c WR CD' J) as CT. rewrite S1 in CT. fold es in CT. rewrite spread_self in CT by auto. rewrite (H (s_ss q) es CV IS LD) in CT. pose proof (wf_nonzero _ _ _ _ WR k c J) as NZ.
      assert (NC : coef KSI CO (s_ss q) q (bump (s_ss q) s 1 es) <> 0c) by (intros X; rewrite X in CT; apply NZ; rewrite <- CT; ring).
      pose proof NC as NC'. apply (coef_nonzero KOI KSI CO KLI CL (s_ss q) q _ W CV) in NC' as (k' & c' & J' & SP). exists k', c'. split; [exact J'|].
      pose proof (coef_term KOI KSI CO KLI CL (s_ss q) q k' c' W CV J') as CT'. rewrite SP in CT'. rewrite spread_self in SP by (auto; eapply LQ; eauto). rewrite SP, expo_bump, String.eqb_refl by exact LD. destruct (in_dec string_dec s (s_ss q)); [|contradiction]. rewrite <- CT', CT. exact NZ.
  - specialize (NIL IS). split; [|intros X; apply empty_terms in NIL; congruence]. intros _ (k & c & J & N). apply N. rewrite expo_notin by exact IS. rewrite (ie_zero _ _ CZ). ring.
Qed.

Definition over (x : outer) (u us vs : symbol_set) (ws : list Z) : Prop := sorted_set us /\ sorted_set vs /\ incl u us /\ incl U vs /\ len ws = len us.
(** The value at the position ws, ts of the terms l. *)
Definition at2 (x : outer) us vs ws ts (l : list (K * res inner)) : C := csum CO (map (fun e => if vec_eqb (spread (s_ss x) us (exps x (fst e))) ws then g vs ts (snd e) else 0c) l).
Lemma at2_coef (x : outer) us vs ws ts : at2 x us vs ws ts (terms x) = coef2 us vs x ws ts.
Proof.
  rewrite coef2_sum by exact CL. unfold at2. induction (terms x) as [|e l IH]; [reflexivity|]. cbn [map csum fold_right filter]. unfold csum in IH. rewrite IH. destruct (vec_eqb _ ws); cbn [map csum fold_right]; unfold csum; ring.
Qed.

Lemma rec_at (x : outer) s idx : RWF U x -> nth_error (s_ss x) idx = Some s -> let out := rec_integrate_at KO TO KOI CO POI TOI EI PO cz cdiv x s idx in
  (exists r L, out = Ok r /\ filled2 U x r L /\ ~ integ_domain KS x s /\ ~ integ_unrep KS (s_ss x) x s /\ ~ coef_depends x s /\
     (forall us vs ws ts, over x (s_ss x) us vs ws ->
        (expo us ws s <> -1 -> total vs ts (part us (s_ss x) (bump us s 1 ws) L) *c cz (expo us ws s + 1) = coef2 us vs x ws ts) /\
        (expo us ws s = 0 -> total vs ts (part us (s_ss x) ws L) = 0c))) \/
  (out = Throw invalid_argument /\ coef_depends x s) \/
  (out = Throw domain_error /\ integ_domain KS x s) \/
  (out = Throw overflow_error /\ (coef_diff_unrep x s \/ integ_unrep KS (s_ss x) x s \/ full (s_log2 x) (len (terms x)))).
Proof.
  intros W EI0 out. pose proof (lw_wf _ _ _ _ (rw_lwf _ _ _ _ _ _ _ _ W)) as W0. unfold out, rec_integrate_at. destruct (start2 x W) as (r0 & ES & FS). cbv zeta.
  match goal with |- context [rfold ?f _ _] => set (step := f) end.
  assert (X : (retval <- set_symbol_set (series_default TO : outer) (s_ss x) ;; retval0 <- set_n_segments (set_tag retval (s_tag x)) (get_s_size x) ;; rfold step (terms x) retval0) =
     (retval <- (retval <- set_symbol_set (series_default TO : outer) (s_ss x) ;; set_n_segments (set_tag retval (s_tag x)) (get_s_size x)) ;; rfold step (terms x) retval)).
  { destruct (set_symbol_set (series_default TO) (s_ss x)); reflexivity. }
  rewrite X, ES. cbn [bind]. clear X ES.
  assert (NDs : NoDup (s_ss x)) by (apply sorted_set_nodup, (wf_ss _ _ _ _ W0)). assert (LI : (idx < len (s_ss x))%nat) by (apply nth_error_Some; congruence).
  set (Bad := fun q : res outer => (q = Throw invalid_argument /\ coef_depends x s) \/ (q = Throw domain_error /\ integ_domain KS x s) \/ (q = Throw overflow_error /\ (coef_diff_unrep x s \/ integ_unrep KS (s_ss x) x s \/ full (s_log2 x) (len (terms x))))).
  set (Inv := fun (done : list (K * res inner)) (r : outer) => exists L, filled2 U x r L /\ len L = len done /\
     (forall k c, In (k, c) done -> expo (s_ss x) (exps x k) s <> -1 /\ ks_fits KS (bump (s_ss x) s 1 (exps x k)) /\ forall q, c = Ok q -> ~ depends q s) /\
     (forall us vs ws ts, over x (s_ss x) us vs ws ->
        (expo us ws s <> -1 -> total vs ts (part us (s_ss x) (bump us s 1 ws) L) *c cz (expo us ws s + 1) = at2 x us vs ws ts done) /\
        (expo us ws s = 0 -> total vs ts (part us (s_ss x) ws L) = 0c))).
  destruct (rfold_inv step Inv Bad) with (l := terms x) (pre := @nil (K * res inner)) (b := r0) as [(r & E & (L & FL & _ & HP & HL))|HB].
  - intros b [[X _]|[[X _]|[X _]]]; discriminate.
  - exists []. split; [exact FS|]. split; [reflexivity|]. split; [intros ? ? []|]. intros us vs ws ts _. split; [intros _; cbn; ring|reflexivity].
  - cbn [app]. intros p r [k c] q EQ (L & FL & NL & HP & HL). assert (I : In (k, c) (terms x)) by (rewrite EQ; apply in_or_app; right; left; reflexivity).
    assert (LT : (S (len p) <= len (terms x))%nat) by (rewrite EQ, app_length; cbn; lia). pose proof (rw_inner _ _ _ _ _ _ _ _ W k c I) as OC. change (okc U c) in OC.
    pose proof (wf_valid _ _ _ _ W0 k c I) as V. unfold step. cbn [fst snd]. assert (LE : len (exps x k) = len (s_ss x)) by (apply (kl_len _ _ KL); exact V).
    pose proof OC as (qc & EC & WQ & IQ). assert (CFD : cf_diff c s = poly_diff KOI CO POI TOI cz qc s) by (rewrite EC; reflexivity). rewrite CFD.
    destruct (diff_exact KOI KSI CO POI TOI KLI CL cz CZ qc s WQ) as [(d & ED & _)|[ED FD]]; [|right; right; right; rewrite ED; split; [reflexivity|]; left; exists k, qc; split; [rewrite <- EC; exact I|exact FD]].
    rewrite ED. cbn [bind]. destruct (cf_diff_zero qc d s WQ ED) as [DZ DN]. destruct (series_empty d) eqn:EE; cbn [negb]; [|right; left; split; [reflexivity|]; exists k, qc; split; [rewrite <- EC; exact I|auto]]. specialize (DZ eq_refl).
    destruct (kl_integrate _ _ KL k (s_ss x) idx V LI) as (D0 & D1 & D2).
    assert (EX : nth idx (exps x k) 0 = expo (s_ss x) (exps x k) s) by (symmetry; eapply expo_nth; eauto; apply nth_error_nth'; rewrite LE; exact LI).
    assert (SA : set_at idx (nth idx (exps x k) 0 + 1) (exps x k) = bump (s_ss x) s 1 (exps x k)).
    { pose proof (spread_set_at (s_ss x) (s_ss x) idx 1 (exps x k) s NDs LE EI0) as H. rewrite !spread_self in H; auto. unfold set_at. rewrite app_length, firstn_length. cbn [List.length]. rewrite skipn_length. lia. }
    rewrite SA, EX in *. destruct (Z.eq_dec (expo (s_ss x) (exps x k) s) (-1)) as [Z1|N1].
    + right. right. left. rewrite (D0 Z1). split; [reflexivity|]. exists k, c. auto.
    + destruct (kl_fits_dec _ _ KL (bump (s_ss x) s 1 (exps x k))) as [F|F].
      * destruct (D1 N1 F) as (k' & EK & V' & EX'). rewrite EK. cbn [bind]. destruct (cf_div_ok c (expo (s_ss x) (exps x k) s + 1) OC ltac:(lia)) as [OD HD].
        destruct (add2 KO KS KOI KSI CO POI TOI EI PO KL KLI CL U UB x r L k' _ FL V' (or_introl OD)) as [(r2 & E2 & FL2)|[E2 F2]].
        -- left. exists r2. split; [exact E2|]. eexists. split; [exact FL2|]. split; [rewrite !app_length; cbn [List.length]; lia|]. split.
           { intros k0 c0 J. apply in_app_or in J as [J|[J|[]]]; [eauto|]. assert (k0 = k /\ c0 = c) as [-> ->] by (split; congruence). split; [exact N1|]. split; [exact F|]. intros q0 Eq. assert (q0 = qc) by congruence. subst q0. exact DZ. }
           intros us vs ws ts OV. pose proof OV as (SU & SV & IU & IV & L1). destruct (HL us vs ws ts OV) as [H1 H2].
           assert (SP : spread (s_ss x) us (ks_exps KS (len (s_ss x)) k') = bump us s 1 (spread (s_ss x) us (exps x k))) by (rewrite EX', <- SA, <- EX; apply (spread_set_at (s_ss x) us _ 1 _ s NDs LE EI0)).
           assert (IS : In s us) by (apply IU; eapply nth_error_In; eauto). assert (LS : len (spread (s_ss x) us (exps x k)) = len us) by (unfold spread; rewrite map_length; reflexivity).
           assert (XS : expo us (spread (s_ss x) us (exps x k)) s = expo (s_ss x) (exps x k) s) by (apply expo_spread'; [exact IU|apply sorted_set_nodup; exact SU]).
           rewrite !part_app, !total_app, !total_one, SP. split.
           ++ intros NM. unfold at2. rewrite map_app, (csum_app CO CL). cbn [map csum fold_right fst snd]. fold (at2 x us vs ws ts p). rewrite <- (H1 NM). rewrite vec_eqb_bump by (auto; apply bump_len; auto). rewrite bump_add by auto. replace (1 + - (1)) with 0 by lia. rewrite bump_0 by auto.
              destruct (vec_eqb (spread (s_ss x) us (exps x k)) ws) eqn:EV; [|ring]. apply vec_eqb_iff in EV. rewrite <- (HD vs ts SV IV). rewrite <- XS, EV. ring.
           ++ intros Z0. rewrite (H2 Z0). destruct (vec_eqb _ ws) eqn:EV; [|ring]. exfalso. apply vec_eqb_iff in EV. apply N1. rewrite <- EV, expo_bump in Z0 by exact LS. rewrite String.eqb_refl in Z0. destruct (in_dec string_dec s us); [lia|contradiction].
        -- right. right. right. split; [exact E2|]. right. right. destruct F2 as [F2 F3]. split; [exact F2|]. eapply Z.le_trans; [exact F3|]. apply Nat2Z.inj_le. lia.
      * right. right. right. rewrite (D2 N1 F). split; [reflexivity|]. right. left. exists k, c. split; [exact I|]. rewrite spread_self; auto.
  - left. exists r, L. split; [exact E|]. split; [exact FL|]. cbn [app] in HP, HL. split; [intros (k & c & I & N); apply (HP k c I); exact N|]. split.
    { intros (k & c & I & N). apply N. rewrite spread_self; auto; [apply (HP k c I)|]. apply (kl_len _ _ KL), (wf_valid _ _ _ _ W0 k c I). }
    split; [intros (k & q & I & N); destruct (HP k _ I) as (_ & _ & H); exact (H q eq_refl N)|]. intros us vs ws ts OV. rewrite <- at2_coef. exact (HL us vs ws ts OV).
  - right. exact HB.
Qed.

(** C75. The integral with respect to s: every coefficient of r times the new exponent is the coefficient of x; nothing is added at exponent 0.  If a coefficient depends on s, the
    integration is refused. *)
Theorem rec_integrate_exact : forall (x : outer) s, RWF U x -> let out := rec_integrate x s in
  exists u, with_symbol (s_ss x) s u /\
  ((exists r, settle out = Ok r /\ RWF U r /\ s_ss r = u /\ s_tag r = s_tag x /\ s_log2 r = s_log2 x /\
      ~ integ_domain KS x s /\ ~ integ_unrep KS u x s /\ ~ coef_depends x s /\
      forall us vs ws ts, over x u us vs ws ->
        (expo us ws s <> -1 -> coef2 us vs r (bump us s 1 ws) ts *c cz (expo us ws s + 1) = coef2 us vs x ws ts) /\
        (expo us ws s = 0 -> coef2 us vs r ws ts = 0c)) \/
   (out = Throw invalid_argument /\ coef_depends x s) \/
   (out = Throw domain_error /\ integ_domain KS x s) \/
   (key_overflow (settle out) /\ (coefficient_throws out \/ unrep KS u x \/ coef_diff_unrep x s \/ integ_unrep KS u x s \/ full (s_log2 x) (len (terms x))))).
Proof.
  intros x s W out. pose proof (rw_lwf _ _ _ _ _ _ _ _ W) as LW. pose proof (lw_wf _ _ _ _ LW) as W0. pose proof (wf_ss _ _ _ _ W0) as SS.
  assert (FIN : forall (a : outer) idx u, with_symbol (s_ss x) s u -> RWF U a -> s_ss a = u -> s_tag a = s_tag x -> s_log2 a = s_log2 x -> len (terms a) = len (terms x) -> nth_error u idx = Some s ->
     (forall us vs ws ts, sorted_set us -> incl u us -> coef2 us vs a ws ts = coef2 us vs x ws ts) ->
     (forall k c, In (k, c) (terms a) -> exists k', In (k', c) (terms x) /\ spread (s_ss x) u (exps x k') = exps a k) ->
     (forall k c, In (k, c) (terms x) -> exists k', In (k', c) (terms a) /\ spread (s_ss x) u (exps x k) = exps a k') ->
     let out := rec_integrate_at KO TO KOI CO POI TOI EI PO cz cdiv a s idx in
     (exists r, settle out = Ok r /\ RWF U r /\ s_ss r = u /\ s_tag r = s_tag x /\ s_log2 r = s_log2 x /\
      ~ integ_domain KS x s /\ ~ integ_unrep KS u x s /\ ~ coef_depends x s /\
      forall us vs ws ts, over x u us vs ws ->
        (expo us ws s <> -1 -> coef2 us vs r (bump us s 1 ws) ts *c cz (expo us ws s + 1) = coef2 us vs x ws ts) /\
        (expo us ws s = 0 -> coef2 us vs r ws ts = 0c)) \/
   (out = Throw invalid_argument /\ coef_depends x s) \/
   (out = Throw domain_error /\ integ_domain KS x s) \/
   (key_overflow (settle out) /\ (coefficient_throws out \/ unrep KS u x \/ coef_diff_unrep x s \/ integ_unrep KS u x s \/ full (s_log2 x) (len (terms x))))).
  { intros a idx u [SU IU] WA SA TA LA NA EI0 CA T1 T2 o. assert (INC : incl (s_ss x) u) by (intros z J; apply IU; auto). pose proof (sorted_set_nodup _ SU) as NDU.
    assert (LEA : forall k c, In (k, c) (terms a) -> len (exps a k) = len u) by (intros k c J; rewrite <- SA; apply (kl_len _ _ KL), (wf_valid _ _ _ _ (lw_wf _ _ _ _ (rw_lwf _ _ _ _ _ _ _ _ WA)) k c J)).
    assert (EXP : forall k, expo u (spread (s_ss x) u (exps x k)) s = expo (s_ss x) (exps x k) s) by (intros k; apply expo_spread'; auto).
    assert (DOM : integ_domain KS a s <-> integ_domain KS x s).
    { split; intros (k & c & J & Z0).
      - destruct (T1 k c J) as (k' & J' & SP). exists k', c. split; [exact J'|]. rewrite <- EXP, SP. rewrite SA in Z0. rewrite SA. exact Z0.
      - destruct (T2 k c J) as (k' & J' & SP). exists k', c. split; [exact J'|]. rewrite SA in *. rewrite <- SP, EXP. exact Z0. }
    assert (DEP : coef_depends a s <-> coef_depends x s) by (split; intros (k & q & J & D); [destruct (T1 _ _ J) as (k' & J' & _)|destruct (T2 _ _ J) as (k' & J' & _)]; exists k', q; auto).
    assert (DUN : coef_diff_unrep a s -> coef_diff_unrep x s) by (intros (k & q & J & D); destruct (T1 _ _ J) as (k' & J' & _); exists k', q; auto).
    assert (UNR : integ_unrep KS (s_ss a) a s <-> integ_unrep KS u x s).
    { split; intros (k & c & J & Z0).
      - destruct (T1 k c J) as (k' & J' & SP). exists k', c. split; [exact J'|]. rewrite SA in Z0. rewrite spread_self in Z0; [|exact NDU|rewrite <- SA at 1; eapply LEA; eauto]. rewrite SP, SA. exact Z0.
      - destruct (T2 k c J) as (k' & J' & SP). exists k', c. split; [exact J'|]. rewrite SA. rewrite spread_self; [|exact NDU|rewrite <- SA at 1; eapply LEA; eauto]. rewrite SA in SP. rewrite <- SP. exact Z0. }
    destruct (rec_at a s idx WA) as [(r & L & E & FL & N1 & N2 & N3 & H)|[[E H]|[[E H]|[E H]]]]; [rewrite SA; exact EI0|fold o in E|fold o in E|fold o in E|fold o in E].
    - destruct FL as [F1 (M1 & M2 & M3) _ F4 F5]. rewrite E. destruct (settle_spec r) as [[S N]|[S N]]; [intros k c J; destruct (F4 k c J) as [(q & -> & _)|B]; eauto| |right; right; right; auto]. left. exists r. split; [exact S|]. destruct (F5 N) as [A1 A2].
      split; [constructor; [exact F1|]; intros k c J; destruct (F4 k c J) as [O|B]; [exact O|]; destruct (N k c J) as (q & ->); destruct B; discriminate|].
      split; [congruence|]. split; [congruence|]. split; [congruence|]. split; [tauto|]. split; [tauto|]. split; [tauto|]. intros us vs ws ts (SU' & SV & IU' & IV & LW'). assert (IA : incl (s_ss a) us) by (rewrite SA; exact IU'). 
      rewrite !A2 by assumption. rewrite <- CA by assumption. apply H. repeat apply conj; assumption.
    - right. left. split; [exact E|tauto].
    - right. right. left. split; [exact E|tauto].
    - right. right. right. rewrite E. split; [left; reflexivity|]. rewrite LA, NA in H. tauto. }
  unfold out, RecModel3.rec_integrate. cbv zeta. destruct (lower_bound (s_ss x) s) as [idx rest] eqn:EL. destruct (lower_bound_spec _ _ _ _ EL) as (A & B & L & D & F).
  destruct (in_dec string_dec s (s_ss x)) as [IS|IS].
  - exists (s_ss x). assert (WS : with_symbol (s_ss x) s (s_ss x)) by (split; [exact SS|]; intros z; split; [auto|intros [H| ->]; auto]). split; [exact WS|].
    assert (ER : exists q, rest = s :: q).
    { destruct rest as [|y q]; [rewrite A in IS; rewrite app_nil_r in IS; apply D in IS; elim (slt_irrefl _ IS)|]. exists q. f_equal. rewrite A in IS. apply in_app_or in IS as [IS|[IS|IS]]; [apply D in IS; elim (slt_irrefl _ IS)|exact IS|].
      assert (X : sorted_set (y :: q)). { rewrite B. clear -SS. revert SS. generalize (s_ss x). induction idx as [|n IH]; intros l S; [exact S|]. destruct l; [constructor|]. inversion_clear S. cbn [skipn]. apply IH. auto. }
      inversion_clear X as [|? ? _ FF]. rewrite Forall_forall in FF. elim F. apply FF. exact IS. }
    destruct ER as [q ->]. rewrite String.eqb_refl. assert (EI0 : nth_error (s_ss x) idx = Some s). { rewrite A. rewrite nth_error_app2; rewrite firstn_length; [|lia]. rewrite Nat.min_l by lia. rewrite Nat.sub_diag. reflexivity. }
    assert (SELF : forall k c, In (k, c) (terms x) -> spread (s_ss x) (s_ss x) (exps x k) = exps x k) by (intros k c J; apply spread_self; [apply sorted_set_nodup; exact SS|]; apply (kl_len _ _ KL), (wf_valid _ _ _ _ W0 k c J)).
    apply (FIN x idx (s_ss x)); auto; intros k c J; exists k; split; auto; eapply SELF; eauto.
  - assert (NR : match rest with y :: _ => y <> s | [] => True end). { destruct rest as [|y q]; [exact I|]. intros ->. apply IS. rewrite A. apply in_or_app. right. left. reflexivity. }
    set (u := firstn idx (s_ss x) ++ s :: rest). assert (SU : sorted_set u) by (eapply sorted_insert; eauto). exists u.
    assert (IU : with_symbol (s_ss x) s u). { split; [exact SU|]. intros z. unfold u. rewrite A at 2. rewrite !in_app_iff. cbn [In]. split; intros H; [destruct H as [H|[H|H]]; auto|destruct H as [[H|H]|H]; auto]. }
    split; [exact IU|]. set (at_ := fun y i => rec_integrate_at KO TO KOI CO POI TOI EI PO cz cdiv y s i).
    assert (EXT : (match rest with y :: _ => if String.eqb y s then at_ x idx else (merged_x <- extend_to KO RC PO TO (s_tag x) true (fun c => c) u x [(idx, [s])] ;; at_ merged_x idx)
       | [] => (merged_x <- extend_to KO RC PO TO (s_tag x) true (fun c => c) u x [(idx, [s])] ;; at_ merged_x idx) end) = (merged_x <- extend_to KO RC PO TO (s_tag x) true (fun c => c) u x [(idx, [s])] ;; at_ merged_x idx)).
    { destruct rest as [|y q]; [reflexivity|]. destruct (String.eqb_spec y s); [contradiction|reflexivity]. }
    fold u. unfold at_ in EXT. rewrite EXT. clear EXT at_.
    assert (EU : insert_all (ins_at [(idx, [s])]) 0 (s_ss x) = u) by (unfold u; rewrite B; apply (insert_one s (s_ss x) idx 0 L)).
    assert (IM : ins_map_ok (len (s_ss x)) [(idx, [s])]) by (split; repeat constructor; cbn; [exact L|discriminate]).
    assert (INC : incl (s_ss x) u) by (intros z J; apply IU; auto).
    destruct (extend_lf KO KS RC PO TO KL (rec_light KOI CO POI TOI EI) (s_tag x) x [(idx, [s])] u LW IM EU SU) as [(a & EA & LWa & SA & TA & LA & HE & NA)|(KV & H)].
    + rewrite EA. cbn [bind]. pose proof (lw_wf _ _ _ _ LWa) as Wa.
      assert (SELFA : forall k, ks_valid KS (len u) k -> spread u u (ks_exps KS (len u) k) = ks_exps KS (len u) k) by (intros k V; apply spread_self; [apply sorted_set_nodup; exact SU|apply (kl_len _ _ KL); exact V]).
      assert (T1 : forall k c, In (k, c) (terms a) -> exists k', In (k', c) (terms x) /\ spread (s_ss x) u (exps x k') = exps a k).
      { intros k c J. assert (EN : entry KS u a (exps a k) = Some c). { apply (entry_in KO KS RC KL); [exact Wa|rewrite SA; apply incl_refl|]. exists k. split; [exact J|]. rewrite SA. apply SELFA. rewrite <- SA. apply (wf_valid _ _ _ _ Wa k c J). }
        rewrite (HE u _ (incl_refl _)) in EN. apply (entry_in KO KS RC KL) in EN; auto. }
      assert (T2 : forall k c, In (k, c) (terms x) -> exists k', In (k', c) (terms a) /\ spread (s_ss x) u (exps x k) = exps a k').
      { intros k c J. assert (EN : entry KS u x (spread (s_ss x) u (exps x k)) = Some c) by (apply (entry_in KO KS RC KL); eauto). rewrite <- (HE u _ (incl_refl _)) in EN. apply (entry_in KO KS RC KL) in EN as (k' & J' & SP); [|exact Wa|rewrite SA; apply incl_refl].
        exists k'. split; [exact J'|]. rewrite <- SP, SA. apply SELFA. rewrite <- SA. apply (wf_valid _ _ _ _ Wa k' c J'). }
      apply (FIN a idx u); auto.
      * constructor; [exact LWa|]. intros k c J. destruct (T1 k c J) as (k' & J' & _). exact (rw_inner _ _ _ _ _ _ _ _ W k' c J').
      * unfold u. rewrite nth_error_app2; rewrite firstn_length; [|lia]. rewrite Nat.min_l by lia. rewrite Nat.sub_diag. reflexivity.
      * intros us vs ws ts SU' IU'. rewrite (coef2_entry KO KS KOI KSI CO POI TOI EI KL CL us vs a) by (auto; rewrite SA; auto). rewrite (coef2_entry KO KS KOI KSI CO POI TOI EI KL CL us vs x) by (auto; eapply incl_tran; eauto). rewrite (HE us ws IU'). reflexivity.
    + right. right. right. split; [destruct KV as [-> | ->]; [left|right]; reflexivity|]. destruct H as [H|H]; [right; left; exact H|]. do 4 right. exact H.
Qed.

End U.
End R.
Print Assumptions rec_diff_exact.
Print Assumptions rec_integrate_exact.

(** * The hypotheses are met *)
(** (x + y^2) a x^2 + (x - 3) a^2: x is a symbol of the keys and of the coefficients. *)
Definition rs := get dR (exR ["a"; "x"]%string 1 [([1; 2], (["x"; "y"]%string, [([1; 0], 1); ([0; 2], 1)])); ([2; 0], (["x"]%string, [([1], 1); ([0], -3)]))]).
Example rs_rwf : rwf exK exS rC exK exS Z_cf xy rs.
Proof.
  constructor.
  - apply (exR_lwf ["a"; "x"]%string 1 [([1; 2], (["x"; "y"]%string, [([1; 0], 1); ([0; 2], 1)])); ([2; 0], (["x"]%string, [([1], 1); ([0], -3)]))]); [repeat constructor|lia|reflexivity|vm_compute; reflexivity].
  - assert (T : map snd (terms rs) = [i1; i2] \/ map snd (terms rs) = [i2; i1]) by (vm_compute; auto). intros k c I. apply (in_map snd) in I. cbn [snd] in I. apply inner_ok. destruct T as [T|T]; rewrite T in I; destruct I as [<-|[<-|[]]]; auto.
Qed.
(** In x: 2 (x + y^2) a x + a x^2 + a^2; in y: 2 y a x^2; in z: zero. *)
Example ex_rec_diff : exists d e z, settle (rec_diff exK Z_tag exK Z_cf exP Z_tag rI rP (fun z => z) rs "x") = Ok d /\ settle (rec_diff exK Z_tag exK Z_cf exP Z_tag rI rP (fun z => z) rs "y") = Ok e /\
  settle (rec_diff exK Z_tag exK Z_cf exP Z_tag rI rP (fun z => z) rs "z") = Ok z /\ series_size z = 0%nat /\ series_size d = 3%nat /\ series_size e = 1%nat /\
  coef2 exS exS Z_cf ["a"; "x"]%string xy d [1; 1] [0; 2] = 2 /\ coef2 exS exS Z_cf ["a"; "x"]%string xy d [1; 2] [0; 0] = 1 /\ coef2 exS exS Z_cf ["a"; "x"]%string xy d [2; 0] [0; 0] = 1 /\ coef2 exS exS Z_cf ["a"; "x"]%string xy e [1; 2] [0; 1] = 2.
Proof. do 3 eexists. do 3 (split; [vm_compute; reflexivity|]). do 6 (split; [vm_compute; reflexivity|]). vm_compute. reflexivity. Qed.

(** q x + q x^-2 with the rational polynomial q = 1/2 a b^2 - 3 a + 2/3 b. *)
Definition qI : mul_env Z Qc Z := ex_env exS (pm_okb kd_int64) false 0.
Definition qP : tbl_policy (Z * Qc) := po_front _.
Definition qRC := rec_cf exK Qc_cf qP Z_tag qI.
Definition qR : tbl_policy (Z * res (series Z Qc Z)) := po_rev _.
Definition dQ : series Z (res (series Z Qc Z)) Z := series_default Z_tag.
Definition rq (n : Z) := buildC exK qRC qR 0 ["x"]%string 1 [(exk [1], Ok exq); (exk [n], Ok exq)].
Lemma rq_rwf n : representsb kd_int64 1 (exk [n]) [n] = true -> is_ok (rq n) = true -> map snd (terms (get dQ (rq n))) = [Ok exq; Ok exq] -> rwf exK exS qRC exK exS Qc_cf ["a"; "b"]%string (get dQ (rq n)).
Proof.
  intros R O T. constructor.
  - eapply (buildC_lwf exK exS qRC qR 0 ["x"]%string 1 _ _ exK_laws (rec_light exK Qc_cf qP Z_tag qI)); [repeat constructor|lia| |apply get_ok; exact O].
    intros k c [I|[I|[]]]; apply (f_equal fst) in I; cbn [fst] in I; subst k; [exists [1]|exists [n]]; [change 1%nat with (len [1]); apply representsb_ok; vm_compute; reflexivity|apply representsb_ok; exact R].
  - intros k c I. apply (in_map snd) in I. cbn [snd] in I. rewrite T in I. exists exq. pose proof exq_wf as (A & B & _). split; [destruct I as [I|[I|[]]]; symmetry; exact I|]. split; [exact A|]. rewrite B. apply incl_refl.
Qed.
Example rq_ok : rwf exK exS qRC exK exS Qc_cf ["a"; "b"]%string (get dQ (rq (-2))) /\ rwf exK exS qRC exK exS Qc_cf ["a"; "b"]%string (get dQ (rq (-1))).
Proof. split; (apply rq_rwf; [vm_compute; reflexivity|vm_compute; reflexivity|reflexivity]). Qed.
Local Notation int n s := (rec_integrate exK Z_tag exK Qc_cf qP Z_tag qI qR Qz Qc_div (get dQ (rq n)) s).
(** In x; in the missing symbol c; refused in a; x^-1 has no integral. *)
Example ex_rec_integrate : exists i, settle (int (-2) "x") = Ok i /\ is_ok (settle (int (-2) "c")) = true /\ int (-2) "a" = Throw invalid_argument /\ int (-1) "x" = Throw domain_error /\
  coef2 exS exS Qc_cf ["x"]%string ["a"; "b"]%string i [2] [1; 2] = qf 1 4 /\ coef2 exS exS Qc_cf ["x"]%string ["a"; "b"]%string i [-1] [1; 0] = qf 3 1.
Proof.
  exists (get dQ (settle (int (-2) "x"))). split; [apply get_ok; vm_compute; reflexivity|]. do 3 (split; [vm_compute; reflexivity|]). split; (apply (cl_eqb _ Qc_cf_laws); vm_compute; reflexivity).
Qed.
