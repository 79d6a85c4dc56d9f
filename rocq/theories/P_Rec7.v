(** Property C84: comparison of polynomials with coefficients of any type, of polynomials with polynomial coefficients, and of both with numbers.
    Vocabulary: LfSpec.v ([entry]), RecSpec.v ([coef2]), EqProofs.v ([entries_equal], [entries_differ]). *)
From Coq Require Import ZArith List Bool String Arith Lia Permutation Sorted Ring Ring_theory.
From Verif Require Import Base KpackModel KpackSpec KpackProofs P_Kpack SymSpec SymModel SymProofs P_Sym PMonSpec PMonModel PMonProofs PMonProofs2 P_PMon KeyOps KeyInst SeriesModel SeriesModel2 SeriesSpec PolyModel PolyModel2 PolySpec CalcSpec PolyProofs PolyProofs2
  SeriesProofs SeriesProofs2 SeriesProofs3 SeriesProofs4 SeriesProofs5 SeriesProofs6 Lin EvalSpec SeriesEval SeriesProofs7 CfInst P_Series P_Series2 P_Poly P_Poly2 PolyProofs5 PolyProofs6 PolyProofs7 LfSpec LfProofs LfProofs2 LfProofs3 LfProofs4 P_Lf P_Lf2
  RecModel RecModel3 RecModel5 RecModel6 RecSpec RecProofs P_Rec P_Rec3 P_Calc P_Rec6 EqProofs.
Import ListNotations.
Open Scope Z_scope.
Open Scope res_scope.
Local Notation len := List.length.

(** C84. Any coefficient type, [ceq] its operator==, which may throw: true means that every two coefficients of the same monomial compare equal and that
    no monomial has one on one side only; false means that some do not; an exception comes from a comparison of two such coefficients or from the keys. *)
Theorem any_cf_equality : forall K C1 C2 Tag (KO : key_ops K) (KS : key_sem K) (CO1 : cf_ops C1) (CO2 : cf_ops C2) (PO1 : tbl_policy (K * C1)) (PO2 : tbl_policy (K * C2)) (TO : tag_ops Tag)
  (ceq : C1 -> C2 -> res bool) (x : series K C1 Tag) (y : series K C2 Tag), key_laws KO KS -> light_laws CO1 -> light_laws CO2 ->
  lwf KO KS CO1 x -> lwf KO KS CO2 y -> Z.of_nat (len (s_ss x) + len (s_ss y)) <= imax size_t ->
  let out := lf_equal_to KO CO1 CO2 PO1 PO2 TO ceq x y in
  lf_not_equal_to KO CO1 CO2 PO1 PO2 TO ceq x y = match out with Ok b => Ok (negb b) | Throw e => Throw e | UB => UB end /\
  exists u, union_of (s_ss x) (s_ss y) u /\
  ((out = Ok true /\ tags_equal TO (s_tag x) (s_tag y) /\ forall us ws, incl u us -> entries_equal ceq (entry KS us x ws) (entry KS us y ws)) \/
   (out = Ok false /\ (~ tags_equal TO (s_tag x) (s_tag y) \/ exists ws, entries_differ ceq (entry KS u x ws) (entry KS u y ws))) \/
   (tags_equal TO (s_tag x) (s_tag y) /\ exists ws c d, entry KS u x ws = Some c /\ entry KS u y ws = Some d /\ out = ceq c d /\ forall q, ceq c d <> Ok q) \/
   (key_overflow out /\ (unrep KS u x \/ unrep KS u y \/ full (s_log2 x) (series_size x) \/ full (s_log2 y) (series_size y)))).
Proof.
  intros K C1 C2 Tag KO KS CO1 CO2 PO1 PO2 TO ceq x y KL L1 L2 WX WY SZ out. split; [unfold lf_not_equal_to; fold out; destruct out; reflexivity|]. rewrite !size_terms. apply equal_lf; auto.
Qed.

(** The coefficients over one set of symbols determine those over any other. *)
Lemma coef_any {K C Tag} (KS : key_sem K) (CO : cf_ops C) (CL : cf_laws CO) vs (x y : series K C Tag) : incl (s_ss x) vs -> incl (s_ss y) vs -> (forall ts, coef KS CO vs x ts = coef KS CO vs y ts) -> forall us ws, coef KS CO us x ws = coef KS CO us y ws.
Proof.
  intros IX IY H us ws. pose proof (cl_ring _ CL) as RT.
  assert (G : forall (s : series K C Tag), incl (s_ss s) vs -> coef KS CO us s ws = psum CO (fun v => vec_eqb (spread vs us v) ws) (vt KS vs s)).
  { intros s Is. rewrite vt_psum. unfold nden. rewrite coef_nden. unfold nden. symmetry. apply (vden_spread KS CO vs us s (fun v => vec_eqb v ws) Is). }
  rewrite (G x IX), (G y IY).
  assert (X : forall l1 l2 : list (list Z * C), (forall a, psum CO (fun v => vec_eqb v a) l1 = psum CO (fun v => vec_eqb v a) l2) -> forall Q, psum CO Q l1 = psum CO Q l2).
  { intros l1 l2 H12 Q. assert (PL : forall l : list (list Z * C), psum CO Q l = lin (c_zero CO) (c_add CO) (c_mul CO) (fun c => c) (fun v => if Q v then c_one CO else c_zero CO) l).
    { induction l as [|e l IH]; [reflexivity|]. cbn [lin]. rewrite (psum_cons CO CL), IH. unfold ifP. destruct (Q (fst e)); f_equal; [symmetry; rewrite (Rmul_comm RT); apply (Rmul_1_l RT)|].
      symmetry. rewrite (Rmul_comm RT). clear -RT. assert (E : c_add CO (c_mul CO (c_zero CO) (snd e)) (c_mul CO (c_zero CO) (snd e)) = c_mul CO (c_zero CO) (snd e)) by (rewrite <- (Rdistr_l RT), (Radd_0_l RT); reflexivity).
      set (m := c_mul CO (c_zero CO) (snd e)) in *. assert (F : c_add CO (c_add CO m m) (c_neg CO m) = c_add CO m (c_neg CO m)) by (rewrite E; reflexivity). rewrite <- (Radd_assoc RT), (Ropp_def RT), (Radd_comm RT), (Radd_0_l RT) in F. exact F. }
    rewrite !PL. apply (lin_ext CO (c_zero CO) (c_one CO) (c_add CO) (c_mul CO) (c_sub CO) (c_neg CO) RT (list_eq_dec Z.eq_dec) (fun c => c) eq_refl (fun a b => eq_refl)).
    exact H12. }
  apply X. intros a. rewrite !vt_psum, <- !coef_nden. apply H; auto.
Qed.

(** Every list of symbols is contained in a symbol set. *)
Lemma sorted_cover (l : list string) : exists vs, sorted_set vs /\ incl l vs.
Proof.
  induction l as [|s l (vs & SV & IV)]; [exists []; split; [constructor|intros z []]|]. destruct (lower_bound vs s) as [k r] eqn:LB.
  destruct (lower_bound_spec vs s k r LB) as (A & B & _).
  destruct (match r with y :: _ => if string_dec y s then true else false | [] => false end) eqn:M.
  - exists vs. split; [exact SV|]. intros z [<-|Iz]; [|auto]. destruct r as [|y r]; [discriminate|]. destruct (string_dec y s) as [->|]; [|discriminate].
    rewrite A. apply in_app_iff. right. left. reflexivity.
  - exists (firstn k vs ++ s :: r). split.
    + apply (IntegProofs.sorted_insert vs s k r SV LB). destruct r as [|y r]; [exact I|]. destruct (string_dec y s); [discriminate|assumption].
    + intros z [<-|Iz]; apply in_app_iff; [right; left; reflexivity|]. apply IV in Iz. rewrite A in Iz. apply in_app_iff in Iz as [Iz|Iz]; [left; exact Iz|right; right; exact Iz].
Qed.

Section S.
Context {K C Tag : Type} (KO : key_ops K) (KS : key_sem K) (CO : cf_ops C).
Hypothesis KL : key_laws KO KS.
Hypothesis CL : cf_laws CO.

Lemma zeros_iff us (x : series K C Tag) k c : wf KO KS CO x -> covers us x -> In (k, c) (terms x) -> (spread (s_ss x) us (ks_exps KS (len (s_ss x)) k) = repeat 0 (len us) <-> ks_exps KS (len (s_ss x)) k = repeat 0 (len (s_ss x))).
Proof.
  intros W [SU IU] I. split; [|intros ->; apply spread_zeros]. intros E. rewrite <- (spread_zeros (s_ss x) us) in E. apply (spread_inj (s_ss x) us); auto.
  - apply sorted_set_nodup, (wf_ss _ _ _ _ W).
  - apply (kl_len _ _ KL). exact (wf_valid _ _ _ _ W k c I).
  - apply repeat_length.
Qed.

(** C84. A series and a number t, converted to a coefficient by f: they are equal iff the series is the constant f t. *)
Theorem number_equality_exact : forall T (f : T -> C) (t_is_zero : T -> bool) (teq : C -> T -> bool) (x : series K C Tag) (t : T),
  (forall t, t_is_zero t = true <-> f t = c_zero CO) -> (forall c t, teq c t = true <-> c = f t) -> wf KO KS CO x ->
  exists b, series_equal_to_cf KO t_is_zero teq x t = Ok b /\
    (b = true <-> forall us ws, covers us x -> coef KS CO us x ws = if vec_eqb ws (repeat 0 (len us)) then f t else c_zero CO).
Proof.
  intros T f tz teq x t HZ HT W. set (one := fun k => ks_exps KS (len (s_ss x)) k = repeat 0 (len (s_ss x))).
  assert (EQ : series_equal_to_cf KO tz teq x t = lf_equal_to_cf KO tz (fun c t => Ok (teq c t)) x t).
  { unfold series_equal_to_cf, lf_equal_to_cf. destruct (series_size x) as [|[|n]]; try reflexivity. destruct (it_deref x (series_begin x)) as [e| |]; cbn [bind]; try reflexivity. destruct (k_is_one KO (fst e) (s_ss x)); reflexivity. }
  rewrite EQ. clear EQ. assert (CV : covers (s_ss x) x) by (split; [apply (wf_ss _ _ _ _ W)|apply incl_refl]).
  destruct (equal_cf_lf KO KS CO KL tz (fun c t => Ok (teq c t)) x t W) as [[ET ->]|[(k & c & ET & ONE & ->)|(-> & k & c & I & ONE)]].
  - exists (tz t). split; [reflexivity|]. rewrite HZ. split.
    + intros F us ws _. rewrite F. replace (if vec_eqb ws _ then c_zero CO else c_zero CO) with (c_zero CO) by (destruct (vec_eqb ws _); reflexivity). apply (coef_zero KS CO CL). rewrite ET. intros k c [].
    + intros H. specialize (H (s_ss x) (repeat 0 (len (s_ss x))) CV). rewrite (proj2 (vec_eqb_iff _ _) eq_refl) in H. rewrite <- H. apply (coef_zero KS CO CL). rewrite ET. intros k c [].
  - exists (teq c t). split; [reflexivity|]. rewrite HT. assert (I : In (k, c) (terms x)) by (rewrite ET; left; reflexivity).
    assert (AT : forall us, covers us x -> coef KS CO us x (repeat 0 (len us)) = c).
    { intros us CU. rewrite <- (coef_term KO KS CO KL CL us x k c W CU I). f_equal. symmetry. apply (zeros_iff us x k c W CU I). exact ONE. }
    split.
    + intros -> us ws CU. destruct (vec_eqb ws (repeat 0 (len us))) eqn:EV; [apply vec_eqb_iff in EV; subst ws; apply AT; exact CU|]. apply (coef_zero KS CO CL). rewrite ET. intros k' c' [[= <- <-]|[]] E.
      apply (zeros_iff us x k (f t) W CU I) in ONE. assert (ws = repeat 0 (len us)) by congruence. apply vec_eqb_iff in H. congruence.
    + intros H. specialize (H (s_ss x) (repeat 0 (len (s_ss x))) CV). rewrite (proj2 (vec_eqb_iff _ _) eq_refl) in H. rewrite <- H. symmetry. apply AT. exact CV.
  - exists false. split; [reflexivity|]. split; [discriminate|]. intros H. exfalso. specialize (H (s_ss x) (spread (s_ss x) (s_ss x) (ks_exps KS (len (s_ss x)) k)) CV).
    rewrite (coef_term KO KS CO KL CL (s_ss x) x k c W CV I) in H. destruct (vec_eqb _ (repeat 0 _)) eqn:EV; [|exact (wf_nonzero _ _ _ _ W k c I H)].
    apply vec_eqb_iff in EV. apply ONE. apply (zeros_iff (s_ss x) x k c W CV I). exact EV.
Qed.
End S.

Section R.
Context {K Tag KI C TagI : Type} (KO : key_ops K) (KS : key_sem K) (TO : tag_ops Tag)
  (KOI : key_ops KI) (KSI : key_sem KI) (CO : cf_ops C) (POI : tbl_policy (KI * C)) (TOI : tag_ops TagI) (EI : mul_env KI C TagI).
Hypothesis KL : key_laws KO KS.
Hypothesis KLI : key_laws KOI KSI.
Hypothesis CL : cf_laws CO.
Notation inner := (series KI C TagI).
Notation outer := (series K (res inner) Tag).
Variable PO : tbl_policy (K * res inner).
Notation RC := (rec_cf KOI CO POI TOI EI).
Notation RWF := (rwf KO KS RC KOI KSI CO).
Notation coef2 := (coef2 KS KSI CO).
Notation wfI := (wf KOI KSI CO).
Variable U : symbol_set.
Hypothesis UB : Z.of_nat (len U + len U) <= imax size_t.

(** The coefficients of each monomial which have comparable tags have equal ones. *)
Definition inner_tags_equal (x y : outer) : Prop := forall us ws a b, covers us x -> covers us y -> entry KS us x ws = Some (Ok a) -> entry KS us y ws = Some (Ok b) -> tags_equal TOI (s_tag a) (s_tag b).

Lemma entry_inner us (x : outer) ws c : RWF U x -> incl (s_ss x) us -> entry KS us x ws = Some c -> exists s, c = Ok s /\ wfI s /\ incl (s_ss s) U /\ series_empty s = false.
Proof.
  intros W I E. apply (entry_in KO KS RC KL us x ws c (lw_wf _ _ _ _ (rw_lwf _ _ _ _ _ _ _ _ W)) I) in E as (k & J & _). destruct (rw_inner _ _ _ _ _ _ _ _ W k c J) as (s & -> & WS & IS).
  exists s. split; [reflexivity|]. split; [exact WS|]. split; [exact IS|]. apply (lw_nonzero _ _ _ _ (rw_lwf _ _ _ _ _ _ _ _ W) k (Ok s) J).
Qed.
Lemma nonempty_coef (s : inner) vs : wfI s -> covers vs s -> series_empty s = false -> exists ts, coef KSI CO vs s ts <> c_zero CO.
Proof.
  intros W CV E. destruct (terms s) as [|[k c] l] eqn:ET; [apply empty_terms in ET; congruence|]. assert (I : In (k, c) (terms s)) by (rewrite ET; left; reflexivity).
  exists (spread (s_ss s) vs (ks_exps KSI (len (s_ss s)) k)). rewrite (coef_term KOI KSI CO KLI CL vs s k c W CV I). exact (wf_nonzero _ _ _ _ W k c I).
Qed.
Lemma inner_cmp (a b : inner) : wfI a -> wfI b -> incl (s_ss a) U -> incl (s_ss b) U ->
  (exists q, series_equal_to KOI CO POI TOI a b = Ok q /\ (q = true <-> tags_equal TOI (s_tag a) (s_tag b) /\ forall us ws, coef KSI CO us a ws = coef KSI CO us b ws)) \/ key_overflow (series_equal_to KOI CO POI TOI a b).
Proof.
  intros WA WB IA IB. destruct (equal_ok KOI KSI CO POI TOI KLI CL a b WA WB (bound KOI KSI CO U UB a b WA WB IA IB)) as [H|[H _]]; [left; exact H|right; exact H].
Qed.

(** C84. Polynomials with polynomial coefficients: equal iff the tags are equal and so are all the coefficients in all the symbols together. *)
Theorem rec_equality : forall x y : outer, RWF U x -> RWF U y -> Z.of_nat (len (s_ss x) + len (s_ss y)) <= imax size_t ->
  let out := rec_equal_to KO TO KOI CO POI TOI EI PO x y in
  (exists b, out = Ok b /\ rec_not_equal_to KO TO KOI CO POI TOI EI PO x y = Ok (negb b) /\
     (b = true <-> tags_equal TO (s_tag x) (s_tag y) /\ inner_tags_equal x y /\
        forall us vs ws ts, covers us x -> covers us y -> sorted_set vs -> incl U vs -> coef2 us vs x ws ts = coef2 us vs y ws ts)) \/
  (key_overflow out /\
   ((exists k a l b, In (k, Ok a) (terms x) /\ In (l, Ok b) (terms y) /\ key_overflow (series_equal_to KOI CO POI TOI a b)) \/
    (exists u, union_of (s_ss x) (s_ss y) u /\ (unrep KS u x \/ unrep KS u y)) \/ full (s_log2 x) (series_size x) \/ full (s_log2 y) (series_size y))).
Proof.
  intros x y WX WY SZ out. unfold rec_not_equal_to, lf_not_equal_to. fold (rec_equal_to KO TO KOI CO POI TOI EI PO x y). fold out. rewrite !size_terms.
  pose proof (rec_light KOI CO POI TOI EI) as LL. pose proof (rw_lwf _ _ _ _ _ _ _ _ WX) as LX. pose proof (rw_lwf _ _ _ _ _ _ _ _ WY) as LY. pose proof (lw_wf _ _ _ _ LX) as X0. pose proof (lw_wf _ _ _ _ LY) as Y0.
  destruct (equal_lf KO KS RC RC PO PO TO KL LL LL (rec_ceq KOI CO POI TOI) x y LX LY SZ) as (u & [SU IU] & H). fold (rec_equal_to KO TO KOI CO POI TOI EI PO x y) in H. fold out in H.
  assert (CX : covers u x) by (split; [exact SU|intros z Iz; apply IU; auto]). assert (CY : covers u y) by (split; [exact SU|intros z Iz; apply IU; auto]).
  destruct H as [(E & T & H)|[(E & H)|[(T & ws & c & d & EX & EY & E & N)|(E & H)]]].
  - left. exists true. rewrite E. split; [reflexivity|]. split; [reflexivity|]. split; [intros _|reflexivity]. split; [exact T|].
    assert (ALL : forall us ws a b, covers us x -> covers us y -> entry KS us x ws = Some (Ok a) -> entry KS us y ws = Some (Ok b) -> tags_equal TOI (s_tag a) (s_tag b) /\ forall us ws, coef KSI CO us a ws = coef KSI CO us b ws).
    { intros us ws a b CU CV EX EY. assert (IUS : incl u us) by (intros z Iz; apply IU in Iz as [Iz|Iz]; [apply CU|apply CV]; exact Iz).
      destruct (entry_inner us x ws (Ok a) WX (proj2 CU) EX) as (a' & [= <-] & WA & IA & _). destruct (entry_inner us y ws (Ok b) WY (proj2 CV) EY) as (b' & [= <-] & WB & IB & _).
      specialize (H us ws IUS). rewrite EX, EY in H. cbn [entries_equal rec_ceq bind] in H. destruct (inner_cmp a b WA WB IA IB) as [(q & EQ & HQ)|[EQ|EQ]]; rewrite EQ in H; try discriminate H. apply HQ. congruence. }
    split; [intros us ws a b CU CV EX EY; apply (ALL us ws a b CU CV EX EY)|]. intros us vs ws ts CU CV SV IV.
    assert (IUS : incl u us) by (intros z Iz; apply IU in Iz as [Iz|Iz]; [apply CU|apply CV]; exact Iz).
    rewrite !(coef2_entry KO KS KOI KSI CO POI TOI EI KL CL us vs) by (auto; apply CU || apply CV). specialize (H us ws IUS).
    destruct (entry KS us x ws) as [c|] eqn:EX, (entry KS us y ws) as [d|] eqn:EY; cbn [entries_equal] in H; try contradiction; [|reflexivity].
    destruct (entry_inner us x ws c WX (proj2 CU) EX) as (a & -> & _). destruct (entry_inner us y ws d WY (proj2 CV) EY) as (b & -> & _). cbn [g]. apply (ALL us ws a b CU CV EX EY).
  - left. exists false. rewrite E. split; [reflexivity|]. split; [reflexivity|]. split; [discriminate|]. intros (T & TI & HC). exfalso. destruct H as [H|(ws & H)]; [exact (H T)|].
    destruct (sorted_cover U) as (vs & SV & IV).
    assert (HE : forall ts, match entry KS u x ws with Some c => g KSI CO vs ts c | None => c_zero CO end = match entry KS u y ws with Some c => g KSI CO vs ts c | None => c_zero CO end).
    { intros ts. specialize (HC u vs ws ts CX CY SV IV). rewrite !(coef2_entry KO KS KOI KSI CO POI TOI EI KL CL u vs) in HC by (auto; apply CX || apply CY). exact HC. }
    destruct (entry KS u x ws) as [c|] eqn:EX, (entry KS u y ws) as [d|] eqn:EY; cbn [entries_differ] in H; [| | |exact H].
    + destruct (entry_inner u x ws c WX (proj2 CX) EX) as (a & -> & WA & IA & _). destruct (entry_inner u y ws d WY (proj2 CY) EY) as (b & -> & WB & IB & _). cbn [rec_ceq bind g] in *.
      destruct (inner_cmp a b WA WB IA IB) as [(q & EQ & HQ)|[EQ|EQ]]; rewrite EQ in H; try discriminate H. assert (Q : q = true); [|congruence]. apply HQ. split; [apply (TI u ws a b CX CY EX EY)|].
      apply (coef_any KSI CO CL vs a b); [intros z Iz; apply IV, IA, Iz|intros z Iz; apply IV, IB, Iz|exact HE].
    + destruct (entry_inner u x ws c WX (proj2 CX) EX) as (a & -> & WA & IA & NE). destruct (nonempty_coef a vs WA) as (ts & NZ); [split; [exact SV|intros z Iz; apply IV, IA, Iz]|exact NE|]. exact (NZ (HE ts)).
    + destruct (entry_inner u y ws d WY (proj2 CY) EY) as (a & -> & WA & IA & NE). destruct (nonempty_coef a vs WA) as (ts & NZ); [split; [exact SV|intros z Iz; apply IV, IA, Iz]|exact NE|]. exact (NZ (eq_sym (HE ts))).
  - right. destruct (entry_inner u x ws c WX (proj2 CX) EX) as (a & -> & WA & IA & _). destruct (entry_inner u y ws d WY (proj2 CY) EY) as (b & -> & WB & IB & _). cbn [rec_ceq bind] in *.
    destruct (inner_cmp a b WA WB IA IB) as [(q & EQ & HQ)|EQ]; [elim (N q EQ)|]. rewrite E. split; [exact EQ|]. left.
    apply (entry_in KO KS RC KL u x ws _ X0 (proj2 CX)) in EX as (k & I & _). apply (entry_in KO KS RC KL u y ws _ Y0 (proj2 CY)) in EY as (l & J & _). exists k, a, l, b. auto.
  - right. split; [exact E|]. right. destruct H as [H|[H|[H|H]]]; auto; left; exists u; (split; [split; [exact SU|exact IU]|]); auto.
Qed.

Lemma coef2_one us vs (x : outer) k c ws ts : RWF U x -> covers us x -> terms x = [(k, c)] -> ks_exps KS (len (s_ss x)) k = repeat 0 (len (s_ss x)) ->
  coef2 us vs x ws ts = if vec_eqb ws (repeat 0 (len us)) then g KSI CO vs ts c else c_zero CO.
Proof.
  intros W CV ET ONE. rewrite (coef2_sum KS KSI CO CL), ET. cbn [filter fst snd]. rewrite ONE, spread_zeros.
  assert (E : vec_eqb (repeat 0 (len us)) ws = vec_eqb ws (repeat 0 (len us))) by (apply eq_true_iff_eq; rewrite !vec_eqb_iff; split; congruence). rewrite E. destruct (vec_eqb ws _); [|reflexivity].
  cbn [map snd csum fold_right]. rewrite (Radd_comm (cl_ring _ CL)). apply (Radd_0_l (cl_ring _ CL)).
Qed.
Lemma coef2_none us vs (x : outer) ws ts : terms x = [] -> coef2 us vs x ws ts = c_zero CO.
Proof. intros ET. rewrite (coef2_sum KS KSI CO CL), ET. reflexivity. Qed.
(** A term whose outer monomial is not one contradicts any claim that x is constant in the outer symbols. *)
Lemma not_constant (x : outer) k c vs (h : list Z -> C) : RWF U x -> In (k, c) (terms x) -> ks_exps KS (len (s_ss x)) k <> repeat 0 (len (s_ss x)) -> sorted_set vs -> incl U vs ->
  ~ forall ws ts, coef2 (s_ss x) vs x ws ts = if vec_eqb ws (repeat 0 (len (s_ss x))) then h ts else c_zero CO.
Proof.
  intros W I ONE SV IV H. pose proof (lw_wf _ _ _ _ (rw_lwf _ _ _ _ _ _ _ _ W)) as W0. assert (CV : covers (s_ss x) x) by (split; [apply (wf_ss _ _ _ _ W0)|apply incl_refl]).
  set (ws := spread (s_ss x) (s_ss x) (ks_exps KS (len (s_ss x)) k)). assert (EE : entry KS (s_ss x) x ws = Some c) by (apply (entry_in KO KS RC KL (s_ss x) x ws c W0 (proj2 CV)); exists k; auto).
  destruct (entry_inner (s_ss x) x ws c W (proj2 CV) EE) as (s & -> & WS & IS & NE). destruct (nonempty_coef s vs WS) as (ts & NZ); [split; [exact SV|intros z Iz; apply IV, IS, Iz]|exact NE|].
  specialize (H ws ts). rewrite (coef2_entry KO KS KOI KSI CO POI TOI EI KL CL (s_ss x) vs x ws ts W0 (proj2 CV)), EE in H. cbn [g] in H.
  destruct (vec_eqb ws (repeat 0 (len (s_ss x)))) eqn:EV; [|exact (NZ H)]. apply vec_eqb_iff in EV. unfold ws in EV. rewrite spread_self in EV; [exact (ONE EV)|apply sorted_set_nodup, (wf_ss _ _ _ _ W0)|apply (kl_len _ _ KL); exact (wf_valid _ _ _ _ W0 k _ I)].
Qed.

(** C84. Comparison with a polynomial of the type of the coefficients: equal iff x is q, constant in the outer symbols (and the tags of the coefficients are equal). *)
Theorem rec_inner_equality : forall (x : outer) (q : inner), RWF U x -> wfI q -> incl (s_ss q) U ->
  let out := rec_equal_to_inner KO KOI CO POI TOI x q in
  (exists b, out = Ok b /\
     (b = true <-> (forall k s, In (k, Ok s) (terms x) -> tags_equal TOI (s_tag s) (s_tag q)) /\
        forall us vs ws ts, covers us x -> sorted_set vs -> incl U vs -> coef2 us vs x ws ts = if vec_eqb ws (repeat 0 (len us)) then coef KSI CO vs q ts else c_zero CO)) \/
  (key_overflow out /\ exists k s, terms x = [(k, Ok s)] /\ key_overflow (series_equal_to KOI CO POI TOI s q)).
Proof.
  intros x q W WQ IQ out. pose proof (lw_wf _ _ _ _ (rw_lwf _ _ _ _ _ _ _ _ W)) as W0. assert (CV : covers (s_ss x) x) by (split; [apply (wf_ss _ _ _ _ W0)|apply incl_refl]).
  destruct (sorted_cover U) as (vs & SV & IV). unfold out, rec_equal_to_inner. clear out.
  destruct (equal_cf_lf KO KS RC KL series_empty (fun a q => a <- a ;; series_equal_to KOI CO POI TOI a q) x q W0) as [[ET ->]|[(k & c & ET & ONE & ->)|(-> & k & c & I & ONE)]].
  - left. exists (series_empty q). split; [reflexivity|]. split.
    + intros E. split; [rewrite ET; intros k s []|]. intros us vs0 ws ts _ _ _. rewrite (coef2_none us vs0 x ws ts ET). apply empty_terms in E.
      assert (Q0 : coef KSI CO vs0 q ts = c_zero CO) by (apply (coef_zero KSI CO CL); rewrite E; intros k c []). rewrite Q0. destruct (vec_eqb _ _); reflexivity.
    + intros [_ H]. destruct (series_empty q) eqn:NE; [reflexivity|]. exfalso. destruct (nonempty_coef q vs WQ) as (ts & NZ); [split; [exact SV|intros z Iz; apply IV, IQ, Iz]|exact NE|].
      specialize (H (s_ss x) vs (repeat 0 (len (s_ss x))) ts CV SV IV). rewrite (coef2_none _ _ x _ _ ET), (proj2 (vec_eqb_iff _ _) eq_refl) in H. exact (NZ (eq_sym H)).
  - destruct (rw_inner _ _ _ _ _ _ _ _ W k c) as (s & -> & WS & IS); [rewrite ET; left; reflexivity|]. cbn [bind].
    destruct (inner_cmp s q WS WQ IS IQ) as [(b & EQ & HB)|EQ]; [left|right; split; [exact EQ|exists k, s; auto]]. exists b. split; [exact EQ|]. rewrite HB. split.
    + intros [T H]. split; [rewrite ET; intros k' s' [[= <- <-]|[]]; exact T|]. intros us vs0 ws ts CU _ _. rewrite (coef2_one us vs0 x k (Ok s) ws ts W CU ET ONE). cbn [g]. rewrite H. reflexivity.
    + intros [T H]. split; [apply (T k s); rewrite ET; left; reflexivity|]. apply (coef_any KSI CO CL vs s q); [intros z Iz; apply IV, IS, Iz|intros z Iz; apply IV, IQ, Iz|].
      intros ts. specialize (H (s_ss x) vs (repeat 0 (len (s_ss x))) ts CV SV IV). rewrite (coef2_one _ vs x k (Ok s) _ ts W CV ET ONE), (proj2 (vec_eqb_iff _ _) eq_refl) in H. exact H.
  - left. exists false. split; [reflexivity|]. split; [discriminate|]. intros [_ H]. exfalso. apply (not_constant x k c vs (fun ts => coef KSI CO vs q ts) W I ONE SV IV). intros ws ts. apply H; auto.
Qed.

(** C84. Comparison with a number. *)
Theorem rec_number_equality : forall T (f : T -> C) (t_is_zero : T -> bool) (teq : C -> T -> bool) (x : outer) (t : T),
  (forall t, t_is_zero t = true <-> f t = c_zero CO) -> (forall c t, teq c t = true <-> c = f t) -> RWF U x ->
  exists b, rec_equal_to_scalar KO KOI t_is_zero teq x t = Ok b /\
    (b = true <-> forall us vs ws ts, covers us x -> sorted_set vs -> incl U vs ->
       coef2 us vs x ws ts = if vec_eqb ws (repeat 0 (len us)) && vec_eqb ts (repeat 0 (len vs)) then f t else c_zero CO).
Proof.
  intros T f tz teq x t HZ HT W. pose proof (lw_wf _ _ _ _ (rw_lwf _ _ _ _ _ _ _ _ W)) as W0. assert (CV : covers (s_ss x) x) by (split; [apply (wf_ss _ _ _ _ W0)|apply incl_refl]).
  destruct (sorted_cover U) as (vs & SV & IV). unfold rec_equal_to_scalar.
  destruct (equal_cf_lf KO KS RC KL tz (fun a t => a <- a ;; series_equal_to_cf KOI tz teq a t) x t W0) as [[ET ->]|[(k & c & ET & ONE & ->)|(-> & k & c & I & ONE)]].
  - exists (tz t). split; [reflexivity|]. rewrite HZ. split.
    + intros F us vs0 ws ts _ _ _. rewrite (coef2_none us vs0 x ws ts ET), F. destruct (_ && _); reflexivity.
    + intros H. specialize (H (s_ss x) vs (repeat 0 (len (s_ss x))) (repeat 0 (len vs)) CV SV IV). rewrite (coef2_none _ _ x _ _ ET), !(proj2 (vec_eqb_iff _ _) eq_refl) in H. symmetry. exact H.
  - destruct (rw_inner _ _ _ _ _ _ _ _ W k c) as (s & -> & WS & IS); [rewrite ET; left; reflexivity|]. cbn [bind].
    destruct (number_equality_exact KOI KSI CO KLI CL T f tz teq s t HZ HT WS) as (b & EQ & HB). exists b. split; [exact EQ|]. rewrite HB. split.
    + intros H us vs0 ws ts CU SV0 IV0. rewrite (coef2_one us vs0 x k (Ok s) ws ts W CU ET ONE). cbn [g]. destruct (vec_eqb ws _); [|reflexivity]. apply H. split; [exact SV0|intros z Iz; apply IV0, IS, Iz].
    + intros H us0 ws0 CU0. set (r := fun ts : list Z => if vec_eqb ts (repeat 0 (len vs)) then f t else c_zero CO).
      assert (AT : forall ts, coef KSI CO vs s ts = r ts).
      { intros ts. specialize (H (s_ss x) vs (repeat 0 (len (s_ss x))) ts CV SV IV). rewrite (coef2_one _ vs x k (Ok s) _ ts W CV ET ONE), (proj2 (vec_eqb_iff _ _) eq_refl) in H. exact H. }
      assert (CS : covers vs s) by (split; [exact SV|intros z Iz; apply IV, IS, Iz]).
      (* every term of s is the constant one *)
      assert (TS : forall k c, In (k, c) (terms s) -> ks_exps KSI (len (s_ss s)) k = repeat 0 (len (s_ss s)) /\ c = f t).
      { intros k' c' I. pose proof (coef_term KOI KSI CO KLI CL vs s k' c' WS CS I) as CT. rewrite AT in CT. unfold r in CT. destruct (vec_eqb _ (repeat 0 (len vs))) eqn:EV.
        - apply vec_eqb_iff in EV. split; [apply (zeros_iff KOI KSI CO KLI vs s k' c' WS CS I); exact EV|symmetry; exact CT].
        - exfalso. exact (wf_nonzero _ _ _ _ WS k' c' I (eq_sym CT)). }
      destruct (vec_eqb ws0 (repeat 0 (len us0))) eqn:EV.
      * apply vec_eqb_iff in EV. subst ws0. destruct (terms s) as [|[k' c'] l] eqn:ES.
        -- assert (Z0 : forall us ws, coef KSI CO us s ws = c_zero CO) by (intros us ws; apply (coef_zero KSI CO CL); rewrite ES; intros k' c' []).
           specialize (AT (repeat 0 (len vs))). rewrite Z0 in *. unfold r in AT. rewrite (proj2 (vec_eqb_iff _ _) eq_refl) in AT. exact AT.
        -- assert (I : In (k', c') (terms s)) by (rewrite ES; left; reflexivity). destruct (TS k' c' (or_introl eq_refl)) as [O ->].
           rewrite <- (coef_term KOI KSI CO KLI CL us0 s k' (f t) WS) at 1; [|assumption|exact I]. rewrite O, spread_zeros. reflexivity.
      * apply (coef_zero KSI CO CL). intros k' c' I E. destruct (TS k' c' I) as [O _]. rewrite O, spread_zeros in E. symmetry in E. apply vec_eqb_iff in E. congruence.
  - exists false. split; [reflexivity|]. split; [discriminate|]. intros H. exfalso. apply (not_constant x k c vs (fun ts => if vec_eqb ts (repeat 0 (len vs)) then f t else c_zero CO) W I ONE SV IV).
    intros ws ts. rewrite H by auto. destruct (vec_eqb ws _); reflexivity.
Qed.
End R.

(** * The hypotheses are met *)
Notation req := (rec_equal_to exK Z_tag exK Z_cf exP Z_tag rI rP).
(** The polynomial x a - ... of P_Rec.v: equal to itself; different from the other one; (x + y) - (x + y) = 0; a sum in the other order is equal, with other symbols stored. *)
Definition rs1 := get dR (series_add exK rC rP Z_tag rx ry).
Definition rs2 := get dR (series_add exK rC rP Z_tag ry rx).
Definition rd := get dR (series_sub exK rC rP Z_tag rs1 rx).
Example ex_rec_equal : req rx rx = Ok true /\ req rx ry = Ok false /\ req ry rx = Ok false /\ req rs1 rs2 = Ok true /\ s_ss rd <> s_ss ry /\ req rd ry = Ok true /\ rec_not_equal_to exK Z_tag exK Z_cf exP Z_tag rI rP rd ry = Ok false /\
  rwf exK exS rC exK exS Z_cf xy rx /\ rwf exK exS rC exK exS Z_cf xy ry.
Proof.
  split; [vm_compute; reflexivity|]. split; [vm_compute; reflexivity|]. split; [vm_compute; reflexivity|]. split; [vm_compute; reflexivity|].
  split; [assert (E : ss_eqb (s_ss rd) (s_ss ry) = false) by (vm_compute; reflexivity); intros H; apply ss_eqb_iff in H; congruence|].
  split; [vm_compute; reflexivity|]. split; [vm_compute; reflexivity|]. split; [apply rx_rwf|apply ry_rwf].
Qed.
(** With a polynomial of the coefficient type: (x + y^2) a^0 equals x + y^2 and not 2 x; with numbers: 7 equals 7, and not 6; the zero polynomial equals 0 only. *)
Definition rk := get dR (exR ["a"]%string 0 [([0], (["x"; "y"]%string, [([1; 0], 1); ([0; 2], 1)]))]).
Definition r7 := get dR (exR ["a"]%string 0 [([0], (["x"]%string, [([0], 7)]))]).
Example ex_rec_equal_lower :
  rec_equal_to_inner exK exK Z_cf exP Z_tag rk (get d0 i1) = Ok true /\ rec_equal_to_inner exK exK Z_cf exP Z_tag rk (get d0 i3) = Ok false /\ rec_equal_to_inner exK exK Z_cf exP Z_tag rx (get d0 i1) = Ok false /\
  rec_equal_to_scalar exK exK (Z.eqb 0) Z.eqb r7 7 = Ok true /\ rec_equal_to_scalar exK exK (Z.eqb 0) Z.eqb r7 6 = Ok false /\ rec_equal_to_scalar exK exK (Z.eqb 0) Z.eqb rk 7 = Ok false /\
  rec_equal_to_scalar exK exK (Z.eqb 0) Z.eqb dR 0 = Ok true /\ rec_equal_to_scalar exK exK (Z.eqb 0) Z.eqb dR 1 = Ok false /\
  series_equal_to_cf exK (Z.eqb 0) Z.eqb (get d0 (exs 0 ["x"]%string 0 [([0], 7)])) 7 = Ok true /\ series_equal_to_cf exK (Z.eqb 0) Z.eqb (get d0 i3) 2 = Ok false.
Proof. do 9 (split; [vm_compute; reflexivity|]). vm_compute. reflexivity. Qed.
Example ex_number_laws : (forall t, Z.eqb 0 t = true <-> t = c_zero Z_cf) /\ (forall c t, Z.eqb c t = true <-> c = t).
Proof. split; intros; rewrite Z.eqb_eq; cbn; split; auto. Qed.
(** A comparison of coefficients which throws: the exponents of x do not fit next to another symbol. *)
Definition rbig1 := get dR (exR ["a"]%string 0 [([1], (["x"]%string, [([2^40], 1)]))]).
Definition rbig2 := get dR (exR ["a"]%string 0 [([1], (["y"]%string, [([1], 1)]))]).
Example ex_rec_equal_throws : is_ok (exs 0 ["x"]%string 0 [([2^40], 1)]) = true /\ key_overflow (req rbig1 rbig2).
Proof. split; [vm_compute; reflexivity|]. vm_compute. auto. Qed.
(** Any coefficient type: series with unequal "not a number" coefficients are not equal to themselves.  The comparison of the coefficients is never true. *)
Example ex_any_cf_equality : lf_equal_to exK rC rC rP rP Z_tag (fun _ _ => Ok false) rx rx = Ok false /\ lf_equal_to exK rC rC rP rP Z_tag (fun _ _ => Throw overflow_error) rx rx = Throw overflow_error /\
  lf_equal_to exK rC rC rP rP Z_tag (fun _ _ => Throw overflow_error) rx ry = Throw overflow_error.
Proof. split; [vm_compute; reflexivity|]. split; vm_compute; reflexivity. Qed.

Print Assumptions any_cf_equality.
Print Assumptions number_equality_exact.
Print Assumptions rec_equality.
Print Assumptions rec_inner_equality.
Print Assumptions rec_number_equality.
Print Assumptions ex_rec_equal.
Print Assumptions ex_rec_equal_lower.
Print Assumptions ex_rec_equal_throws.
Print Assumptions ex_any_cf_equality.
