(** Property C88: conversion between polynomials with polynomial coefficients, polynomials of the coefficient type and numbers.
    Vocabulary: RecSpec.v ([coef2]), SeriesSpec.v ([coef]). *)
From Coq Require Import ZArith List Bool String Arith Lia Permutation Sorted Ring Ring_theory.
From Verif Require Import Base KpackModel KpackSpec KpackProofs P_Kpack SymSpec SymModel SymProofs P_Sym PMonSpec PMonModel PMonProofs PMonProofs2 P_PMon KeyOps KeyInst SeriesModel SeriesModel2 SeriesSpec PolyModel PolyModel2 PolySpec CalcSpec PolyProofs PolyProofs2
  SeriesProofs SeriesProofs2 SeriesProofs3 SeriesProofs4 SeriesProofs5 SeriesProofs6 Lin EvalSpec SeriesEval SeriesProofs7 CfInst P_Series P_Series2 P_Poly P_Poly2 PolyProofs5 PolyProofs6 PolyProofs7 LfSpec LfProofs LfProofs2 LfProofs3 LfProofs4 P_Lf P_Lf2
  RecModel RecModel3 RecModel5 RecModel6 RecModel7 RecSpec RecProofs P_Rec P_Rec3 P_Calc P_Rec6 EqProofs P_Rec7.
Import ListNotations.
Open Scope Z_scope.
Open Scope res_scope.
Local Notation len := List.length.

(** Construction from a coefficient, for coefficients of any type. *)
Lemma of_cf_light {K C Tag} (KO : key_ops K) (KS : key_sem K) (CO : cf_ops C) (PO : tbl_policy (K * C)) (TO : tag_ops Tag) c (ss : symbol_set) :
  key_laws KO KS -> c_is_zero CO (c_zero CO) = true -> sorted_set ss -> ks_fits KS (repeat 0 (len ss)) ->
  exists r : series K C Tag, series_of_cf KO CO PO TO c ss = Ok r /\ lwf KO KS CO r /\ s_ss r = ss /\ s_tag r = tag_default TO /\ s_log2 r = 0%nat /\
    terms r = (if c_is_zero CO c then [] else [(k_of_ss KO ss, c)]).
Proof.
  intros KL CZ SS FT. destruct (kl_unit _ _ KL ss FT) as [VU XU].
  set (s0 := Series [[]] 0 (tag_default TO) ss : series K C Tag).
  assert (W0 : wf KO KS CO s0). { destruct (set_n_segments_ok KO KS CO s0 0) as [_ X]; [cbn; lia|exact SS|exact X]. }
  unfold series_of_cf, series_add_term_table. cbn [andb bind negb tbl_try_emplace tbl_find find orb].
  assert (RE : reorder PO [(k_of_ss KO ss, c)] = [(k_of_ss KO ss, c)]).
  { apply Permutation_length_1_inv. apply Permutation_sym, reorder_perm. }
  unfold tbl_try_emplace, tbl_find. cbn [find]. rewrite RE. cbn [find fst]. rewrite (keqb_refl KO KS KL). cbn [snd]. rewrite (kl_zero _ _ KL). cbn [orb].
  destruct (c_is_zero CO c) eqn:E.
  - cbn [tbl_erase filter fst]. rewrite (keqb_refl KO KS KL). cbn [negb bind]. eexists. split; [reflexivity|]. split; [split; [exact W0|intros k d []]|]. split; [reflexivity|]. split; [reflexivity|]. split; reflexivity.
  - cbn [bind]. eexists. split; [reflexivity|]. split; [|split; [reflexivity|]; split; [reflexivity|]; split; reflexivity].
    split; [|cbn; intros k d [I|[]]; inversion I; subst; exact E].
    apply wf_iff. unfold wf'. cbn [s_ss s_log2 s_tables]. split; [exact SS|]. split; [cbn; lia|]. split; [reflexivity|].
    intros [|i] t H; [|destruct i; discriminate]. cbn in H. inversion H; subst t. split; [cbn; constructor; [intros []|constructor]|]. split; [|intros X; elim X; reflexivity].
    intros k d [I|[]]. inversion I; subst. split; [exact VU|]. split; [|cbn; apply Z.mod_1_r].
    intros X. rewrite X in E. congruence.
Qed.

Lemma default_ok {K C Tag} (KO : key_ops K) (KS : key_sem K) (CO : cf_ops C) (TO : tag_ops Tag) : wf KO KS CO (series_default TO : series K C Tag).
Proof. destruct (set_n_segments_ok KO KS CO (series_default TO : series K C Tag) 0) as [_ X]; [cbn; lia|constructor|exact X]. Qed.

(** * Construction from a series of higher rank, for any types *)
(** The zero series converts to the zero series, a series with the constant term only as its coefficient; any other series throws. *)
Theorem higher_rank_exact : forall K C Tag K' C' Tag' (TO : tag_ops Tag) (KO' : key_ops K') (KS' : key_sem K') (CO' : cf_ops C') (mk : C' -> res (series K C Tag)) (x : series K' C' Tag'),
  key_laws KO' KS' -> wf KO' KS' CO' x ->
  (terms x = [] -> series_of_higher_rank TO KO' mk x = Ok (series_default TO)) /\
  (forall k c, terms x = [(k, c)] -> ks_exps KS' (len (s_ss x)) k = repeat 0 (len (s_ss x)) -> series_of_higher_rank TO KO' mk x = mk c) /\
  ((exists k c, In (k, c) (terms x) /\ ks_exps KS' (len (s_ss x)) k <> repeat 0 (len (s_ss x))) -> series_of_higher_rank TO KO' mk x = Throw invalid_argument).
Proof.
  intros K C Tag K' C' Tag' TO KO' KS' CO' mk x KL W. destruct (is_single_cf_ok KO' KS' CO' KL x W) as (b & EB & HB). unfold series_of_higher_rank. rewrite EB. cbn [bind]. split; [|split].
  - intros T. replace b with true by (symmetry; apply HB; rewrite T; intros k c []). replace (series_empty x) with true by (symmetry; apply empty_terms; exact T). reflexivity.
  - intros k c T ONE. replace b with true by (symmetry; apply HB; rewrite T; intros k' c' [E|[]]; inversion E; subst; exact ONE).
    replace (series_empty x) with false by (symmetry; destruct (series_empty x) eqn:E; [apply empty_terms in E; congruence|reflexivity]). rewrite (begin_single x (k, c) T). reflexivity.
  - intros (k & c & I & N). destruct b; [|reflexivity]. exfalso. apply N. apply (proj1 HB eq_refl k c I).
Qed.

Section R.
Context {K Tag KI C TagI : Type} (KO : key_ops K) (KS : key_sem K) (TO : tag_ops Tag)
  (KOI : key_ops KI) (KSI : key_sem KI) (CO : cf_ops C) (POI : tbl_policy (KI * C)) (TOI : tag_ops TagI) (EI : mul_env KI C TagI).
Hypothesis KL : key_laws KO KS.
Hypothesis KLI : key_laws KOI KSI.
Hypothesis CL : cf_laws CO.
Notation inner := (series KI C TagI).
Notation outer := (series K (res inner) Tag).
Variable PO : tbl_policy (K * res inner).
Notation RC := (rec_cf KOI CO POI TOI EI).
Notation RWF := (rwf KO KS RC KOI KSI CO).
Notation coef2 := (coef2 KS KSI CO).
Notation wfI := (wf KOI KSI CO).
Notation of_inner := (rec_of_inner KO TO KOI CO POI TOI EI PO).
Notation of_number := (rec_of_number KO TO KOI CO POI TOI EI PO).
Notation to_inner := (rec_to_inner KO TOI).
Variable U : symbol_set.

(** C88. A polynomial with polynomial coefficients constructed from a polynomial of the coefficient type is that polynomial, constant in the outer symbols;
    the stored coefficient is a copy; nothing is stored for zero. *)
Theorem rec_of_inner_exact : forall (q : inner) (ss : symbol_set), wfI q -> incl (s_ss q) U -> sorted_set ss -> ks_fits KS (repeat 0 (len ss)) ->
  exists r, of_inner q ss = Ok r /\ RWF U r /\ s_ss r = ss /\ s_tag r = tag_default TO /\ (forall k c, In (k, c) (terms r) -> c = Ok q) /\
    forall us vs ws ts, covers us r -> coef2 us vs r ws ts = if vec_eqb ws (repeat 0 (len us)) then coef KSI CO vs q ts else c_zero CO.
Proof.
  intros q ss WQ IQ SS FT. destruct (of_cf_light KO KS RC PO TO (Ok q) ss KL eq_refl SS FT) as (r & E & LW & S & T & _ & TR). exists r. split; [exact E|]. cbn [rec_cf c_is_zero] in TR.
  assert (RW : RWF U r). { split; [exact LW|]. intros k c I. rewrite TR in I. destruct (series_empty q); [contradiction|]. destruct I as [I|[]]. inversion I; subst. exists q. auto. }
  split; [exact RW|]. split; [exact S|]. split; [exact T|]. split.
  - intros k c I. rewrite TR in I. destruct (series_empty q); [contradiction|]. destruct I as [I|[]]. inversion I; reflexivity.
  - intros us vs ws ts CU. destruct (series_empty q) eqn:EQ.
    + rewrite (coef2_none KS KSI CO CL us vs r ws ts TR). apply empty_terms in EQ. assert (Q0 : coef KSI CO vs q ts = c_zero CO) by (apply (coef_zero KSI CO CL); rewrite EQ; intros k c []).
      rewrite Q0. destruct (vec_eqb _ _); reflexivity.
    + destruct (kl_unit _ _ KL ss FT) as [_ XU]. rewrite <- S in XU. rewrite <- S in TR. exact (coef2_one KO KS KOI KSI CO POI TOI EI CL U us vs r _ _ ws ts RW CU TR XU).
Qed.
(** The same from a number. *)
Theorem rec_of_number_exact : forall (n : C) (ss : symbol_set), sorted_set ss -> ks_fits KS (repeat 0 (len ss)) -> ks_fits KSI [] ->
  exists r, of_number n ss = Ok r /\ RWF U r /\ s_ss r = ss /\ s_tag r = tag_default TO /\
    forall us vs ws ts, covers us r -> sorted_set vs -> coef2 us vs r ws ts = if vec_eqb ws (repeat 0 (len us)) && vec_eqb ts (repeat 0 (len vs)) then n else c_zero CO.
Proof.
  intros n ss SS FT FI. destruct (of_cf_ok KOI KSI CO POI TOI KLI CL n [] ltac:(constructor) FI) as (q & E & WQ & SQ & _ & _ & TQ). unfold rec_of_number. rewrite E. cbn [bind].
  destruct (rec_of_inner_exact q ss WQ ltac:(rewrite SQ; intros z []) SS FT) as (r & ER & RW & SR & TR & _ & CR). exists r. split; [exact ER|]. split; [exact RW|]. split; [exact SR|]. split; [exact TR|].
  intros us vs ws ts CU SV. rewrite CR by exact CU. destruct (vec_eqb ws _); [|reflexivity]. cbn [andb].
  assert (ONE : forall k c, In (k, c) (terms q) -> ks_exps KSI (len (s_ss q)) k = [] /\ c = n).
  { intros k c I. rewrite TQ in I. destruct (c_is_zero CO n); [contradiction|]. destruct I as [I|[]]. inversion I; subst. split; [|reflexivity]. rewrite SQ. apply (kl_unit _ _ KLI [] FI). }
  destruct (vec_eqb ts (repeat 0 (len vs))) eqn:ET.
  - apply vec_eqb_iff in ET. destruct (c_is_zero CO n) eqn:EZ.
    + apply (cl_zero _ CL) in EZ. rewrite EZ. apply (coef_zero KSI CO CL). rewrite TQ. intros k c [].
    + destruct (ONE (k_of_ss KOI []) n ltac:(rewrite TQ; left; reflexivity)) as [O _]. assert (CV : covers vs q) by (split; [exact SV|rewrite SQ; intros z []]).
      pose proof (coef_term KOI KSI CO KLI CL vs q (k_of_ss KOI []) n WQ CV ltac:(rewrite TQ; left; reflexivity)) as CT. rewrite O, SQ in CT.
      pose proof (spread_zeros ([] : symbol_set) vs) as SZ. cbn [List.length repeat] in SZ. rewrite SZ in CT. subst ts. exact CT.
  - apply (coef_zero KSI CO CL). intros k c I. destruct (ONE k c I) as [O _]. rewrite O, SQ. pose proof (spread_zeros ([] : symbol_set) vs) as SZ. cbn [List.length repeat] in SZ. rewrite SZ.
    intros X. assert (vec_eqb ts (repeat 0 (len vs)) = true) by (apply vec_eqb_iff; congruence). congruence.
Qed.

(** C88. Conversion to the coefficient type: it succeeds exactly if the polynomial is constant in the outer symbols, and gives that constant. *)
Theorem rec_to_inner_exact : forall x : outer, RWF U x ->
  (exists q, to_inner x = Ok q /\ wfI q /\ incl (s_ss q) U /\
     forall us vs ws ts, covers us x -> coef2 us vs x ws ts = if vec_eqb ws (repeat 0 (len us)) then coef KSI CO vs q ts else c_zero CO) \/
  (to_inner x = Throw invalid_argument /\
     exists us vs ws ts, covers us x /\ ws <> repeat 0 (len us) /\ coef2 us vs x ws ts <> c_zero CO).
Proof.
  intros x W. pose proof (lw_wf _ _ _ _ (rw_lwf _ _ _ _ _ _ _ _ W)) as W0. pose proof (higher_rank_exact KI C TagI K (res inner) Tag TOI KO KS RC (fun c => c) x KL W0) as (H0 & H1 & H2).
  destruct (is_single_cf_ok KO KS RC KL x W0) as (b & _ & HB). destruct (terms x) as [|[k c] l] eqn:ET.
  - left. exists (series_default TOI). split; [apply H0; reflexivity|]. split; [exact (default_ok KOI KSI CO TOI)|]. split; [intros z []|]. intros us vs ws ts _. rewrite (coef2_none KS KSI CO CL us vs x ws ts ET).
    assert (Q0 : coef KSI CO vs (series_default TOI : inner) ts = c_zero CO) by (apply (coef_zero KSI CO CL); intros k c []). rewrite Q0. destruct (vec_eqb _ _); reflexivity.
  - rewrite <- ET in *. assert (I0 : In (k, c) (terms x)) by (rewrite ET; left; reflexivity). destruct b.
    + pose proof (proj1 HB eq_refl) as ONE. left. destruct (rw_inner _ _ _ _ _ _ _ _ W k c I0) as (s & -> & WS & IS).
      assert (T1 : terms x = [(k, Ok s)]).
      { destruct l as [|[k' c'] l]; [exact ET|]. exfalso. pose proof (wf_keys _ _ _ _ W0) as N. pose proof (wf_valid _ _ _ _ W0) as V. rewrite ET in N, V. cbn [map fst] in N. inversion N as [|? ? NI]; subst. apply NI. left.
        apply (kl_inj _ _ KL (len (s_ss x))); [eapply V; right; left; reflexivity|eapply V; left; reflexivity|]. rewrite (ONE k' c'), (ONE k (Ok s)); [reflexivity|exact I0|rewrite ET; right; left; reflexivity]. }
      exists s. split; [apply (H1 k (Ok s) T1); apply (ONE k (Ok s) I0)|]. split; [exact WS|]. split; [exact IS|]. intros us vs ws ts CU.
      rewrite (coef2_one KO KS KOI KSI CO POI TOI EI CL U us vs x k (Ok s) ws ts W CU T1 (ONE k (Ok s) I0)). reflexivity.
    + right. assert (D : exists k c, In (k, c) (terms x) /\ ks_exps KS (len (s_ss x)) k <> repeat 0 (len (s_ss x))).
      { destruct (existsb (fun e => negb (vec_eqb (ks_exps KS (len (s_ss x)) (fst e)) (repeat 0 (len (s_ss x))))) (terms x)) eqn:EX.
        - apply existsb_exists in EX as ([k' c'] & I & N). exists k', c'. split; [exact I|]. intros X. apply vec_eqb_iff in X. cbn [fst] in N. rewrite X in N. discriminate N.
        - exfalso. assert (false = true); [|discriminate]. apply HB. intros k' c' I. destruct (vec_eqb (ks_exps KS (len (s_ss x)) k') (repeat 0 (len (s_ss x)))) eqn:EV; [apply vec_eqb_iff; exact EV|].
          assert (X : existsb (fun e => negb (vec_eqb (ks_exps KS (len (s_ss x)) (fst e)) (repeat 0 (len (s_ss x))))) (terms x) = true) by (apply existsb_exists; exists (k', c'); split; [exact I|cbn [fst]; rewrite EV; reflexivity]).
          congruence. }
      split; [apply H2; exact D|]. destruct D as (k' & c' & I & N). assert (CV : covers (s_ss x) x) by (split; [apply (wf_ss _ _ _ _ W0)|apply incl_refl]).
      destruct (sorted_cover U) as (vs & SV & IV). set (ws := spread (s_ss x) (s_ss x) (ks_exps KS (len (s_ss x)) k')).
      assert (EE : entry KS (s_ss x) x ws = Some c') by (apply (entry_in KO KS RC KL (s_ss x) x ws c' W0 (proj2 CV)); exists k'; auto).
      destruct (entry_inner KO KS KOI KSI CO POI TOI EI KL U (s_ss x) x ws c' W (proj2 CV) EE) as (s & -> & WS & IS & NE).
      destruct (nonempty_coef KOI KSI CO KLI CL s vs WS) as (ts & NZ); [split; [exact SV|intros z Iz; apply IV, IS, Iz]|exact NE|].
      exists (s_ss x), vs, ws, ts. split; [exact CV|]. split.
      * unfold ws. rewrite spread_self; [exact N|apply sorted_set_nodup, (wf_ss _ _ _ _ W0)|apply (kl_len _ _ KL); exact (wf_valid _ _ _ _ W0 k' _ I)].
      * rewrite (coef2_entry KO KS KOI KSI CO POI TOI EI KL CL (s_ss x) vs x ws ts W0 (proj2 CV)), EE. exact NZ.
Qed.

Lemma to_number_via {T} (zero : T) (of_cf : C -> T) (x : outer) : RWF U x -> rec_to_number KO KOI zero of_cf x = (q <- to_inner x ;; series_to_cf KOI zero of_cf q).
Proof.
  intros W. unfold rec_to_number, rec_to_inner, series_of_higher_rank, is_single_cf. rewrite size_terms. destruct (terms x) as [|[k c] [|e l]] eqn:ET; cbn [List.length].
  - replace (series_empty x) with true by (symmetry; apply empty_terms; exact ET). reflexivity.
  - rewrite (begin_single x (k, c) ET). replace (series_empty x) with false by (symmetry; destruct (series_empty x) eqn:E; [apply empty_terms in E; congruence|reflexivity]). cbn [bind fst snd].
    destruct (k_is_one KO k (s_ss x)); reflexivity.
  - reflexivity.
Qed.
(** C88. Conversion to a number: it succeeds exactly if the polynomial is a constant, and gives it (in the type T, whose zero is T(0)). *)
Theorem rec_to_number_exact : forall T (zero : T) (of_cf : C -> T) (x : outer), of_cf (c_zero CO) = zero -> RWF U x ->
  (exists n, rec_to_number KO KOI zero of_cf x = Ok (of_cf n) /\
     forall us vs ws ts, covers us x -> sorted_set vs -> incl U vs -> coef2 us vs x ws ts = if vec_eqb ws (repeat 0 (len us)) && vec_eqb ts (repeat 0 (len vs)) then n else c_zero CO) \/
  (rec_to_number KO KOI zero of_cf x = Throw invalid_argument /\
     exists us vs ws ts, covers us x /\ sorted_set vs /\ incl U vs /\ ~ (ws = repeat 0 (len us) /\ ts = repeat 0 (len vs)) /\ coef2 us vs x ws ts <> c_zero CO).
Proof.
  intros T zero of_cf x Z0 W. rewrite (to_number_via zero of_cf x W). pose proof (lw_wf _ _ _ _ (rw_lwf _ _ _ _ _ _ _ _ W)) as W0.
  assert (CX : covers (s_ss x) x) by (split; [apply (wf_ss _ _ _ _ W0)|apply incl_refl]). destruct (sorted_cover U) as (vu & SU & IU).
  destruct (rec_to_inner_exact x W) as [(q & E & WQ & IQ & HC)|(E & us & vs & ws & ts & CU & NW & NC)]; rewrite E; cbn [bind].
  - destruct (to_cf_ok KOI KSI CO KLI zero of_cf q WQ) as [[TQ ->]|[(k & c & TQ & ONE & ->)|[(k & c & I & N) ->]]].
    + left. exists (c_zero CO). split; [f_equal; auto|]. intros us vs ws ts CU _ _. rewrite HC by exact CU.
      assert (Q0 : coef KSI CO vs q ts = c_zero CO) by (apply (coef_zero KSI CO CL); rewrite TQ; intros k c []). rewrite Q0. destruct (vec_eqb ws _); [destruct (vec_eqb ts _)|]; reflexivity.
    + left. exists c. split; [reflexivity|]. intros us vs ws ts CU SV IV. rewrite HC by exact CU. destruct (vec_eqb ws _); [|reflexivity]. cbn [andb].
      assert (CQ : covers vs q) by (split; [exact SV|intros z Iz; apply IV, IQ, Iz]). assert (I : In (k, c) (terms q)) by (rewrite TQ; left; reflexivity).
      pose proof (coef_term KOI KSI CO KLI CL vs q k c WQ CQ I) as CT. rewrite ONE, spread_zeros in CT. destruct (vec_eqb ts (repeat 0 (len vs))) eqn:ET.
      * apply vec_eqb_iff in ET. subst ts. exact CT.
      * apply (coef_zero KSI CO CL). intros k' c' I'. rewrite TQ in I'. destruct I' as [I'|[]]. inversion I'; subst k' c'. rewrite ONE, spread_zeros. intros X.
        assert (vec_eqb ts (repeat 0 (len vs)) = true) by (apply vec_eqb_iff; congruence). congruence.
    + right. split; [reflexivity|]. assert (CQ : covers vu q) by (split; [exact SU|intros z Iz; apply IU, IQ, Iz]).
      exists (s_ss x), vu, (repeat 0 (len (s_ss x))), (spread (s_ss q) vu (ks_exps KSI (len (s_ss q)) k)). split; [exact CX|]. split; [exact SU|]. split; [exact IU|]. split.
      * intros [_ X]. apply N. apply (zeros_iff KOI KSI CO KLI vu q k c WQ CQ I). exact X.
      * rewrite HC by exact CX. rewrite (proj2 (vec_eqb_iff _ _) eq_refl). rewrite (coef_term KOI KSI CO KLI CL vu q k c WQ CQ I). exact (wf_nonzero _ _ _ _ WQ k c I).
  - right. split; [reflexivity|]. (* the same coefficient over a cover of U *)
    destruct (entry KS us x ws) as [c|] eqn:EE.
    + destruct (entry_inner KO KS KOI KSI CO POI TOI EI KL U us x ws c W (proj2 CU) EE) as (s & -> & WS & IS & NE).
      destruct (nonempty_coef KOI KSI CO KLI CL s vu WS) as (tu & NZ); [split; [exact SU|intros z Iz; apply IU, IS, Iz]|exact NE|].
      exists us, vu, ws, tu. split; [exact CU|]. split; [exact SU|]. split; [exact IU|]. split; [intros [X _]; exact (NW X)|].
      rewrite (coef2_entry KO KS KOI KSI CO POI TOI EI KL CL us vu x ws tu W0 (proj2 CU)), EE. exact NZ.
    + exfalso. apply NC. rewrite (coef2_entry KO KS KOI KSI CO POI TOI EI KL CL us vs x ws ts W0 (proj2 CU)), EE. reflexivity.
Qed.
(** Round trips: up and down again gives the polynomial back (the zero polynomial without its symbols), and numbers. *)
Theorem rec_round_trips : forall (q : inner) (n : C) (ss : symbol_set) T (zero : T) (of_cf : C -> T), of_cf (c_zero CO) = zero -> wfI q -> sorted_set ss -> ks_fits KS (repeat 0 (len ss)) -> ks_fits KSI [] ->
  (r <- of_inner q ss ;; to_inner r) = Ok (if series_empty q then series_default TOI else q) /\
  (r <- of_number n ss ;; rec_to_number KO KOI zero of_cf r) = Ok (of_cf n).
Proof.
  intros q n ss T zero of_cf Z0 WQ SS FT FI. destruct (kl_unit _ _ KL ss FT) as [_ XU].
  assert (UP : forall q : inner, (r <- of_inner q ss ;; to_inner r) = Ok (if series_empty q then series_default TOI else q)).
  { intros p. destruct (of_cf_light KO KS RC PO TO (Ok p) ss KL eq_refl SS FT) as (r & E & LW & S & _ & _ & TR). unfold rec_of_inner. rewrite E. cbn [bind]. cbn [rec_cf c_is_zero] in TR.
    pose proof (higher_rank_exact KI C TagI K (res inner) Tag TOI KO KS RC (fun c => c) r KL (lw_wf _ _ _ _ LW)) as (H0 & H1 & _). destruct (series_empty p); [apply H0; exact TR|].
    apply (H1 _ _ TR). rewrite S. exact XU. }
  split; [apply UP|]. unfold rec_of_number. destruct (of_cf_ok KOI KSI CO POI TOI KLI CL n [] ltac:(constructor) FI) as (p & E & WP & SP & _ & _ & TP). rewrite E. cbn [bind].
  destruct (of_cf_light KO KS RC PO TO (Ok p) ss KL eq_refl SS FT) as (r & ER & LW & S & _ & _ & TR). specialize (UP p). unfold rec_of_inner in *. rewrite ER in *. cbn [bind] in *.
  assert (RW : rwf KO KS RC KOI KSI CO (s_ss p) r). { split; [exact LW|]. intros k c I. rewrite TR in I. destruct (c_is_zero RC (Ok p)); [contradiction|]. destruct I as [I|[]]. inversion I; subst. exists p. split; [reflexivity|]. split; [exact WP|apply incl_refl]. }
  assert (V : rec_to_number KO KOI zero of_cf r = (q <- to_inner r ;; series_to_cf KOI zero of_cf q)) by (clear -RW; unfold rec_to_number, rec_to_inner, series_of_higher_rank, is_single_cf; rewrite size_terms; destruct (terms r) as [|[k c] [|e l]] eqn:ET; cbn [List.length];
    [replace (series_empty r) with true by (symmetry; apply empty_terms; exact ET); reflexivity| |reflexivity]; rewrite (begin_single r (k, c) ET);
    replace (series_empty r) with false by (symmetry; destruct (series_empty r) eqn:E; [apply empty_terms in E; congruence|reflexivity]); cbn [bind fst snd]; destruct (k_is_one KO k (s_ss r)); reflexivity).
  rewrite V, UP. cbn [bind]. destruct (series_empty p) eqn:EP.
  - apply empty_terms in EP. rewrite EP in TP. destruct (c_is_zero CO n) eqn:EZ; [|discriminate TP]. apply (cl_zero _ CL) in EZ. subst n. rewrite Z0. reflexivity.
  - destruct (to_cf_ok KOI KSI CO KLI zero of_cf p WP) as [[TQ _]|[(k & c & TQ & _ & ->)|[(k & c & I & N) _]]].
    + apply empty_terms in TQ. congruence.
    + rewrite TQ in TP. destruct (c_is_zero CO n); [discriminate|]. f_equal. f_equal. congruence.
    + exfalso. rewrite TP in I. destruct (c_is_zero CO n); [contradiction|]. destruct I as [I|[]]. inversion I; subst. apply N. rewrite SP. apply (kl_unit _ _ KLI [] FI).
Qed.
End R.

(** * The hypotheses are met *)
(** x + y^2, constant in a, converts to x + y^2; 7 converts to 7 and 0 to 0; a polynomial that contains a, and a number from one that contains x, throw. *)
Definition up1 := rec_of_inner exK Z_tag exK Z_cf exP Z_tag rI rP (get d0 i1) ["a"]%string.
Definition up7 := rec_of_number exK Z_tag exK Z_cf exP Z_tag rI rP 7 ["a"]%string.
Example ex_rec_convert :
  rec_to_inner exK Z_tag rk = Ok (get d0 i1) /\ rec_to_inner exK Z_tag rx = Throw invalid_argument /\ rec_to_inner exK Z_tag dR = Ok d0 /\
  rec_to_number exK exK 0 (fun c => c) r7 = Ok 7 /\ rec_to_number exK exK 0 (fun c => c) rk = Throw invalid_argument /\ rec_to_number exK exK 0 (fun c => c) rx = Throw invalid_argument /\ rec_to_number exK exK 0 (fun c => c) dR = Ok 0 /\
  is_ok up1 = true /\ is_ok up7 = true /\ (r <- up1 ;; rec_to_inner exK Z_tag r) = Ok (get d0 i1) /\ (r <- up7 ;; rec_to_number exK exK 0 (fun c => c) r) = Ok 7 /\
  terms (get dR up1) = terms rk /\ terms (get dR up7) <> terms r7.
Proof. do 11 (split; [vm_compute; reflexivity|]). split; [vm_compute; reflexivity|]. vm_compute. discriminate. Qed.

Print Assumptions higher_rank_exact.
Print Assumptions rec_of_inner_exact.
Print Assumptions rec_of_number_exact.
Print Assumptions rec_to_inner_exact.
Print Assumptions rec_to_number_exact.
Print Assumptions rec_round_trips.
