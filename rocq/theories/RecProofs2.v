(** Adding terms to a polynomial with polynomial coefficients. *)
From Coq Require Import ZArith List Bool String Arith Lia Permutation Sorted Ring Ring_theory.
From Verif Require Import Base IntModel SymSpec SymModel SymProofs P_Sym PMonSpec KeyOps SeriesModel SeriesModel2 SeriesSpec PolyModel PolyModel2 PolySpec PolyProofs PolyProofs2
  SeriesProofs SeriesProofs2 SeriesProofs3 SeriesProofs4 SeriesProofs5 SeriesProofs6 SeriesEval P_Series P_Series2 P_Poly P_Poly2 PolyProofs5 PolyProofs6 PolyProofs7 LfSpec LfProofs LfProofs2 LfProofs3 LfProofs4 P_Lf RecModel RecSpec RecProofs P_Rec.
Import ListNotations.
Open Scope Z_scope.
Open Scope res_scope.
Local Notation len := List.length.

Section R.
Context {K Tag KI C TagI : Type} (KO : key_ops K) (KS : key_sem K) (TO : tag_ops Tag)
  (KOI : key_ops KI) (KSI : key_sem KI) (CO : cf_ops C) (POI : tbl_policy (KI * C)) (TOI : tag_ops TagI) (EI : mul_env KI C TagI) (PO : tbl_policy (K * res (series KI C TagI))).
Hypothesis KL : key_laws KO KS.
Hypothesis KLI : key_laws KOI KSI.
Hypothesis CL : cf_laws CO.
Notation inner := (series KI C TagI).
Notation outer := (series K (res inner) Tag).
Notation RC := (rec_cf KOI CO POI TOI EI).
Notation "0c" := (c_zero CO).
Notation "a +c b" := (c_add CO a b) (at level 50, left associativity).
Notation RWF := (rwf KO KS RC KOI KSI CO).
Notation coef2 := (coef2 KS KSI CO).
Notation g := (g KSI CO).
Notation okc := (okc KOI KSI CO).
Notation okc' := (okc' KOI KSI CO).
Notation val := (val KSI CO).
Add Ring CringR2 : (cl_ring _ CL).

Variable U : symbol_set.
Hypothesis UB : Z.of_nat (len U + len U) <= imax size_t.

Definition part (us : symbol_set) (ss : symbol_set) (ws : list Z) (l : list (K * res inner)) : list (res inner) := map snd (filter (fun e => vec_eqb (spread ss us (ks_exps KS (len ss) (fst e))) ws) l).
Definition total (vs : symbol_set) (ts : list Z) (l : list (res inner)) : C := csum CO (map (g vs ts) l).

(** r is filled by the terms L. *)
Record filled2 (x r : outer) (L : list (K * res inner)) : Prop := {
  f2_lwf : lwf KO KS RC r;
  f2_meta : same_meta x r;
  f2_len : (len (terms r) <= len L)%nat;
  f2_okc : forall k c, In (k, c) (terms r) -> okc' U c;
  f2_sum : no_exception r -> (forall k c, In (k, c) L -> exists s, c = Ok s) /\
    forall us vs ws ts, sorted_set us -> incl (s_ss x) us -> coef2 us vs r ws ts = total vs ts (part us (s_ss x) ws L)
}.

Lemma bad_not_ok (c : res inner) : key_overflow c -> c_is_zero RC c = false /\ ~ exists s, c = Ok s.
Proof. intros [-> | ->]; (split; [reflexivity|intros (s & H); discriminate]). Qed.
Lemma add_bad_l a b : key_overflow a -> key_overflow (c_add RC a b).
Proof. intros [-> | ->]; [left|right]; reflexivity. Qed.
Lemma add_bad_r a b : okc U a -> key_overflow b -> key_overflow (c_add RC a b).
Proof. intros (s & -> & _) [-> | ->]; [left|right]; reflexivity. Qed.

Lemma merged_okc' a b c : (forall c, a = Some c -> okc' U c) -> okc' U b -> merged RC true a (Some b) = Some c -> okc' U c.
Proof.
  intros HA HB. destruct a as [a|]; cbn [merged]; unfold nonzero; destruct (c_is_zero RC _); try discriminate; intros [= <-]; [|exact HB].
  specialize (HA a eq_refl). destruct HA as [HA|HA]; [|right; apply add_bad_l; exact HA]. destruct HB as [HB|HB]; [|right; apply add_bad_r; auto].
  destruct (sum_ok KOI KSI CO POI TOI EI KLI CL U UB true a b HA HB) as [[H _]|H]; [left|right]; exact H.
Qed.

Lemma add2 (x r : outer) L k c : filled2 x r L -> ks_valid KS (len (s_ss x)) k -> okc' U c ->
  (exists r', add_term KO RC PO true r k c = Ok r' /\ filled2 x r' (L ++ [(k, c)])) \/
  (add_term KO RC PO true r k c = Throw overflow_error /\ full (s_log2 x) (len L)).
Proof.
  intros [F1 (M1 & M2 & M3) F3 F4 F5] V OC.
  destruct (any_cf_add_term KO KS RC PO KL (rec_light KOI CO POI TOI EI) true r k c F1) as [(r' & E & W' & N1 & N2 & N3 & H)|[E FU]]; [rewrite M1; exact V| |].
  2: { right. split; [exact E|]. rewrite M3 in FU. destruct FU as [A B]. split; [exact A|]. lia. }
  left. exists r'. split; [exact E|]. pose proof (lw_wf _ _ _ _ F1) as W0. pose proof (lw_wf _ _ _ _ W') as W0'. pose proof (wf_ss _ _ _ _ W0) as SS.
  assert (IN : forall us ws c, incl (s_ss r) us -> entry KS us r ws = Some c -> exists k, In (k, c) (terms r)) by (intros us ws d IU EE; apply (entry_in KO KS RC KL us r ws d W0 IU) in EE as (k0 & I & _); eauto).
  assert (IN' : forall us ws c, incl (s_ss r') us -> entry KS us r' ws = Some c -> exists k, In (k, c) (terms r')) by (intros us ws d IU EE; apply (entry_in KO KS RC KL us r' ws d W0' IU) in EE as (k0 & I & _); eauto).
  constructor.
  - exact W'.
  - split; [congruence|]. split; congruence.
  - rewrite app_length. cbn [List.length]. assert (LT : (len (terms r') <= S (len (terms r)))%nat); [|lia].
    unfold add_term in E. destruct (add_term_lf KO KS RC PO KL (rec_light KOI CO POI TOI EI) true true true false r k c F1) as [(r2 & E2 & _ & (_ & _ & X))|(E2 & _)]; [rewrite M1; exact V|discriminate|auto| |congruence].
    assert (r2 = r') by congruence. subst r2. exact X.
  - intros k0 c0 I. destruct (in_entry KO KS KOI CO POI TOI EI KL r' k0 c0 W0' I) as (ws & EE). rewrite (H (s_ss r') ws) in EE by (rewrite N1; auto using incl_refl). destruct (vec_eqb _ ws).
    + eapply merged_okc'; [|exact OC|exact EE]. intros d Ed. apply IN in Ed as (k1 & I1); [|rewrite N1; apply incl_refl]. eapply F4; eauto.
    + apply IN in EE as (k1 & I1); [|rewrite N1; apply incl_refl]. eapply F4; eauto.
  - intros NE. set (wk := spread (s_ss r) (s_ss r) (ks_exps KS (len (s_ss r)) k)).
    assert (NER : no_exception r).
    { intros k0 c0 I. destruct (F4 k0 c0 I) as [(s & -> & _)|BC]; [eauto|]. exfalso. destruct (in_entry KO KS KOI CO POI TOI EI KL r k0 c0 W0 I) as (ws & EE). specialize (H (s_ss r) ws (incl_refl _) SS). rewrite EE in H. destruct (vec_eqb _ ws).
      - cbn [merged] in H. pose proof (bad_not_ok _ (add_bad_l c0 c BC)) as [Z0 NO]. unfold nonzero in H. rewrite Z0 in H. apply IN' in H as (k1 & I1); [|rewrite N1; apply incl_refl]. apply NO. exact (NE _ _ I1).
      - apply IN' in H as (k1 & I1); [|rewrite N1; apply incl_refl]. apply (bad_not_ok _ BC). exact (NE _ _ I1). }
    assert (CE : exists s, c = Ok s).
    { destruct OC as [(s & -> & _)|BC]; [eauto|]. exfalso. specialize (H (s_ss r) wk (incl_refl _) SS). assert (VE : vec_eqb (spread (s_ss r) (s_ss r) (ks_exps KS (len (s_ss r)) k)) wk = true) by (apply vec_eqb_iff; reflexivity). rewrite VE in H.
      assert (BM : exists d, entry KS (s_ss r) r' wk = Some d /\ key_overflow d).
      { rewrite H. destruct (entry KS (s_ss r) r wk) as [a|] eqn:EA; cbn [merged]; unfold nonzero.
        - apply IN in EA as (k1 & I1); [|apply incl_refl]. assert (BA : key_overflow (c_add RC a c)) by (destruct (F4 _ _ I1) as [OA|BA]; [apply add_bad_r; auto|apply add_bad_l; auto]). rewrite (proj1 (bad_not_ok _ BA)). eauto.
        - rewrite (proj1 (bad_not_ok _ BC)). eauto. }
      destruct BM as (d & ED & BD). apply IN' in ED as (k1 & I1); [|rewrite N1; apply incl_refl]. apply (bad_not_ok _ BD). exact (NE _ _ I1). }
    destruct (F5 NER) as [G1 G2]. split.
    + intros k0 c0 I. apply in_app_iff in I as [I|[[= -> ->]|[]]]; eauto.
    + intros us vs ws ts SU IU. assert (IR : incl (s_ss r) us) by (rewrite M1; exact IU). rewrite (coef2_entry KO KS KOI KSI CO POI TOI EI KL CL us vs r' ws ts W0') by (rewrite N1; exact IR). rewrite (H us ws IR SU).
      specialize (G2 us vs ws ts SU IU). rewrite (coef2_entry KO KS KOI KSI CO POI TOI EI KL CL us vs r ws ts W0 IR) in G2. unfold part. rewrite filter_app, map_app. unfold total. rewrite map_app, (csum_app CO CL).
      change (csum CO (map (g vs ts) (map snd (filter (fun e => vec_eqb (spread (s_ss x) us (ks_exps KS (len (s_ss x)) (fst e))) ws) L)))) with (total vs ts (part us (s_ss x) ws L)). rewrite <- G2. cbn [filter fst]. rewrite M1.
      destruct (vec_eqb (spread (s_ss x) us (ks_exps KS (len (s_ss x)) k)) ws) eqn:EV; cbn [map csum fold_right snd].
      * specialize (H us ws IR SU). rewrite M1, EV in H. assert (OA : forall d, entry KS us r ws = Some d -> okc U d).
        { intros d Ed. apply IN in Ed as (k1 & I1); [|exact IR]. destruct (F4 _ _ I1) as [OA|BA]; [exact OA|]. elim (proj2 (bad_not_ok _ BA)). exact (NER _ _ I1). }
        assert (OB : forall d, Some c = Some d -> okc U d). { intros d [= <-]. destruct OC as [OC|BC]; [exact OC|]. elim (proj2 (bad_not_ok _ BC)). exact CE. }
        destruct (merged_val KOI KSI CO POI TOI EI KLI CL U UB true (entry KS us r ws) (Some c) OA OB) as [_ MV]. 
        assert (MV' := MV ltac:(intros d Ed; rewrite Ed in H; apply IN' in H as (k1 & I1); [exact (NE _ _ I1)|rewrite N1; exact IR]) vs ts). cbv iota in MV'. unfold P_Rec.val at 1 in MV'. unfold P_Rec.val in MV'.
        etransitivity; [exact MV'|]. destruct (entry KS us r ws); cbn; ring.
      * destruct (entry KS us r ws); cbn; ring.
Qed.
End R.
