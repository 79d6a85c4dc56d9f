(** Property C60: generators (make_polynomials, make_p_series).  Vocabulary: PSSpec.v ([is_symbol u s r]: the series r is the symbol s, over the symbols u;
    [constructs]: the constructor of keys from ranges). *)
From Coq Require Import ZArith List Bool String Arith Sorted Permutation Lia Ring Ring_theory.
From Verif Require Import Base KpackModel KpackSpec KpackProofs P_Kpack IntModel IntSpec IntProofs P_Int SymModel SymSpec SymProofs P_Sym PMonModel PMonSpec PMonProofs PMonProofs2 P_PMon
  DPMModel DPMSpec DPMProofs DPMProofs2 DPMProofs3 P_DPM KeyOps KeyInst
  SeriesModel SeriesModel2 SeriesSpec SeriesProofs SeriesProofs2 SeriesProofs3 SeriesProofs4 SeriesProofs5 SeriesProofs6 Lin EvalSpec SeriesEval SeriesProofs7 CfInst P_Series P_Series2
  PolyModel PolyModel2 PolySpec PolyProofs7 PolyProofs8 PolyProofs9 P_Poly P_Poly2 PSModel PSSpec PSProofs P_PS.
Import ListNotations.
Open Scope Z_scope.
Open Scope res_scope.
Local Notation len := List.length.

Lemma unit_exps_01 us s : Forall (fun v => v = 0 \/ v = 1) (unit_exps us s).
Proof. apply Forall_forall. intros v I. apply in_map_iff in I as (z & <- & _). destruct (String.eqb z s); auto. Qed.
Lemma spread_unit ss us s : NoDup ss -> NoDup us -> incl ss us -> In s ss -> spread ss us (unit_exps ss s) = unit_exps us s.
Proof.
  intros N N' I J. unfold spread, unit_exps. apply map_ext_in. intros z _. rewrite expo_map. destruct (in_dec string_dec z ss) as [Z|Z]; [reflexivity|].
  destruct (String.eqb_spec z s); [subst; contradiction|reflexivity].
Qed.

Section Gen.
Context {K C Tag : Type} (KO : key_ops K) (KS : key_sem K) (CO : cf_ops C) (PO : tbl_policy (K * C)) (TO : tag_ops Tag).
Context (KL : key_laws KO KS) (CL : cf_laws CO) (kof : list Z -> res K) (KF : constructs KS kof).
Notation series := (series K C Tag).
Notation WF := (wf KO KS CO).
Notation coef := (coef KS CO).
Infix "+c" := (c_add CO) (at level 50, left associativity).
Add Ring CringG : (cl_ring _ CL).

Lemma make_one u s : sorted_set u -> Z.of_nat (len u) <= imax int64 -> In s u ->
  (exists r, (retval <- set_symbol_set (series_default TO : series) u ;; k <- kof (unit_exps u s) ;; add_term KO CO PO true retval k (c_one CO)) = Ok r /\
     ks_fits KS (unit_exps u s) /\ WF r /\ s_tag r = tag_default TO /\ is_symbol KS CO u s r) \/
  (key_overflow (retval <- set_symbol_set (series_default TO : series) u ;; k <- kof (unit_exps u s) ;; add_term KO CO PO true retval k (c_one CO)) /\ ~ ks_fits KS (unit_exps u s)).
Proof.
  intros SU L IS. unfold set_symbol_set. change (series_empty (series_default TO : series)) with true. cbn iota. cbn [bind]. cbn [series_default s_tables s_log2 s_tag].
  assert (LU : len (unit_exps u s) = len u) by apply map_length.
  destruct (KF (unit_exps u s) (unit_exps_01 u s)) as [[FT (k & -> & V & X)]|[NF [->| ->]]]; cbn [bind]; [rewrite LU; exact L| |right; split; [left; reflexivity|exact NF]|right; split; [right; reflexivity|exact NF]].
  left. rewrite LU in V, X. pose proof (set_n_segments_ok KO KS CO (Series [[]] 0 (tag_default TO) u : series) 0 ltac:(lia) SU) as [_ W0]. cbn [s_tag s_ss repeat Nat.pow] in W0.
  destruct (add_term_gen KO KS CO PO KL CL true true true true false (Series [[]] 0 (tag_default TO) u : series) k (c_one CO) W0 V ltac:(discriminate) (or_introl eq_refl) (or_introl eq_refl)) as [(r & ER & WR & (M1 & M2 & M3) & _ & P & _)|(_ & X0 & _)]; [|contradiction].
  unfold add_term. rewrite ER. exists r. split; [reflexivity|]. split; [exact FT|]. split; [exact WR|]. split; [exact M2|]. split; [exact M1|].
  cbn [s_ss] in *. intros us ws [CU CI]. unfold SeriesSpec.coef. rewrite (P (fun k => vec_eqb (spread (s_ss r) us (ks_exps KS (len (s_ss r)) k)) ws)).
  cbn [terms s_tables List.concat app]. rewrite (psum_nil CO). rewrite M1 in *. rewrite X, spread_unit; try apply sorted_set_nodup; auto.
  unfold vec_eqb. destruct (list_eq_dec Z.eq_dec (unit_exps us s) ws) as [->|NE]; destruct (list_eq_dec Z.eq_dec _ _); try congruence; cbn [ifP sg]; ring.
Qed.

(** C60. One symbol, over itself or over a given symbol set. *)
Lemma make_generator_ok s :
  (exists r, make_generator KO CO PO TO kof s = Ok r /\ WF r /\ s_tag r = tag_default TO /\ is_symbol KS CO [s] s r) \/
  (key_overflow (make_generator KO CO PO TO kof s) /\ ~ ks_fits KS (unit_exps [s] s)).
Proof.
  assert (SS : sorted_set [s]) by (repeat constructor). destruct (make_one [s] s SS ltac:(vm_compute; discriminate) (or_introl eq_refl)) as [(r & ER & _ & H)|H];
    unfold unit_exps in *; cbn [map] in *; rewrite String.eqb_refl in *; [left; exists r; auto|right; exact H].
Qed.
Lemma make_generator_ss_ok ss s : sorted_set ss -> Z.of_nat (len ss) <= imax int64 ->
  (exists r, make_generator_ss KO CO PO TO kof ss s = Ok r /\ In s ss /\ WF r /\ s_tag r = tag_default TO /\ is_symbol KS CO ss s r) \/
  (make_generator_ss KO CO PO TO kof ss s = Throw invalid_argument /\ ~ In s ss) \/
  (key_overflow (make_generator_ss KO CO PO TO kof ss s) /\ In s ss /\ ~ ks_fits KS (unit_exps ss s)).
Proof.
  intros SS L. unfold make_generator_ss, set_symbol_set. change (series_empty (series_default TO : series)) with true. cbn iota. cbn [bind].
  destruct (existsb (String.eqb s) ss) eqn:EX; cbn [negb].
  - apply existsb_exists in EX as (z & I & EZ). apply String.eqb_eq in EZ. subst z. destruct (make_one ss s SS L I) as [(r & ER & _ & H)|H]; [left; exists r; auto|right; right; auto].
    destruct H as [H1 H2]. split; [exact H1|]. auto.
  - right. left. split; [reflexivity|]. intros I. assert (existsb (String.eqb s) ss = true) by (apply existsb_exists; exists s; split; [exact I|apply String.eqb_refl]). congruence.
Qed.

(** C60. make_polynomials: one polynomial for each name, in order, equal to that symbol. *)
Theorem make_polynomials_exact : forall names,
  let out := make_polynomials KO CO PO TO kof names in
  (exists rs, out = Ok rs /\ Forall2 (fun s r => WF r /\ s_tag r = tag_default TO /\ is_symbol KS CO [s] s r) names rs) \/
  (key_overflow out /\ exists s, In s names /\ ~ ks_fits KS (unit_exps [s] s)).
Proof.
  intros names out. unfold out, make_polynomials. destruct (rmap_spec (make_generator KO CO PO TO kof) names) as [(l' & E & F)|(l1 & s & l2 & EQ & _ & H)].
  - left. exists l'. split; [exact E|]. clear E out. induction F as [|s r l l' E F IH]; constructor; [|exact IH]. destruct (make_generator_ok s) as [(r' & E' & H)|[[H|H] _]]; rewrite E in *; try discriminate. injection E' as ->. exact H.
  - right. destruct (make_generator_ok s) as [(r' & E' & _)|[KV NF]].
    + destruct H as [(e & X & _)|[X _]]; rewrite E' in X; discriminate.
    + split; [|exists s; split; [rewrite EQ; apply in_elt|exact NF]]. destruct H as [(e & X & ->)|[X ->]], KV as [Y|Y]; rewrite X in Y; try discriminate; injection Y as ->; [left|right]; reflexivity.
Qed.

(** C60. With a symbol set: the polynomials are over the given symbols; a name that is not one of them is rejected. *)
Theorem make_polynomials_ss_exact : forall ss names, sorted_set ss -> Z.of_nat (len ss) <= imax int64 ->
  let out := make_polynomials_ss KO CO PO TO kof ss names in
  (exists rs, out = Ok rs /\ Forall2 (fun s r => In s ss /\ WF r /\ s_tag r = tag_default TO /\ is_symbol KS CO ss s r) names rs) \/
  (out = Throw invalid_argument /\ exists s, In s names /\ ~ In s ss) \/
  (key_overflow out /\ exists s, In s names /\ In s ss /\ ~ ks_fits KS (unit_exps ss s)).
Proof.
  intros ss names SS L out. unfold out, make_polynomials_ss. destruct (rmap_spec (make_generator_ss KO CO PO TO kof ss) names) as [(l' & E & F)|(l1 & s & l2 & EQ & _ & H)].
  - left. exists l'. split; [exact E|]. clear E out. induction F as [|s r l l' E F IH]; constructor; [|exact IH]. destruct (make_generator_ss_ok ss s SS L) as [(r' & E' & H)|[[H _]|[[H|H] _]]]; rewrite E in *; try discriminate. injection E' as ->. exact H.
  - right. assert (IN : In s names) by (rewrite EQ; apply in_elt). destruct (make_generator_ss_ok ss s SS L) as [(r' & E' & _)|[[KV NF]|[KV [IS NF]]]].
    + destruct H as [(e & X & _)|[X _]]; rewrite E' in X; discriminate.
    + left. split; [|exists s; auto]. destruct H as [(e & X & ->)|[X ->]]; rewrite X in KV; [injection KV as ->; reflexivity|discriminate].
    + right. split; [|exists s; auto]. destruct H as [(e & X & ->)|[X ->]], KV as [Y|Y]; rewrite X in Y; try discriminate; injection Y as ->; [left|right]; reflexivity.
Qed.
End Gen.

Section GenPS.
Context {K C : Type} (KO : key_ops K) (KS : key_sem K) (CO : cf_ops C) (PO : tbl_policy (K * C)) (tD : ity).
Context (KL : key_laws KO KS) (CL : cf_laws CO) (HT : integral_type tD) (DI : degrees_in KS tD) (kof : list Z -> res K) (KF : constructs KS kof).
Notation series := (series K C trunc_t).
Notation WF := (wf KO KS CO).
Notation coef := (coef KS CO).

(** The power series r is the symbol s, over the symbols u, truncated by t. *)
Definition is_truncated_symbol (u : symbol_set) (s : string) (t : trunc_t) (r : series) : Prop :=
  WF r /\ s_ss r = u /\ s_tag r = t /\ respects KS r /\
  forall us ws, covers us r -> coef us r ws = if vec_eqb ws (unit_exps us s) && within t us ws then c_one CO else c_zero CO.
Definition over (ss : option symbol_set) (s : string) : symbol_set := match ss with None => [s] | Some u => u end.

Lemma make_p_series_one_ok ss s : (forall u, ss = Some u -> sorted_set u /\ Z.of_nat (len u) <= imax int64) ->
  (exists r, make_p_series_one KO CO PO kof ss s = Ok r /\ In s (over ss s) /\ WF r /\ s_tag r = no_truncation /\ is_symbol KS CO (over ss s) s r) \/
  (make_p_series_one KO CO PO kof ss s = Throw invalid_argument /\ ~ In s (over ss s)) \/
  (key_overflow (make_p_series_one KO CO PO kof ss s) /\ In s (over ss s) /\ ~ ks_fits KS (unit_exps (over ss s) s)).
Proof.
  intros H. destruct ss as [u|]; cbn [make_p_series_one over].
  - destruct (H u eq_refl) as [SU L]. exact (make_generator_ss_ok KO KS CO PO ps_tag_ops KL CL kof KF u s SU L).
  - destruct (make_generator_ok KO KS CO PO ps_tag_ops KL CL kof KF s) as [(r & E & P)|[E N]]; [left; exists r; split; [exact E|]; split; [left; reflexivity|exact P]|right; right].
    split; [exact E|]. split; [left; reflexivity|exact N].
Qed.

Lemma kept_coef_in t us (x r : series) ws : WF x -> WF r -> covers us x -> s_ss r = s_ss x ->
  (forall k c, In (k, c) (terms r) <-> In (k, c) (terms x) /\ within t (s_ss x) (ks_exps KS (len (s_ss x)) k) = true) ->
  coef us r ws = if within t us ws then coef us x ws else c_zero CO.
Proof.
  intros WX WR CX ES H. assert (SX := wf_ss _ _ _ _ WX). pose proof CX as [SU IU].
  assert (CR : covers us r) by (split; [exact SU|rewrite ES; exact IU]).
  assert (WI : forall k c, In (k, c) (terms x) -> within t us (spread (s_ss x) us (ks_exps KS (len (s_ss x)) k)) = within t (s_ss x) (ks_exps KS (len (s_ss x)) k)).
  { intros k c I. apply within_spread; auto. apply (kl_len _ _ KL). eapply wf_valid; eauto. }
  destruct (Exists_dec (fun e : K * C => spread (s_ss x) us (ks_exps KS (len (s_ss x)) (fst e)) = ws) (terms x) ltac:(intros e; apply list_eq_dec; apply Z.eq_dec)) as [EX|NX].
  - apply Exists_exists in EX as ([k c] & I & EQ). cbn [fst] in EQ. subst ws. rewrite (coef_term KO KS CO KL CL us x k c WX CX I), (WI k c I). destruct (within t (s_ss x) _) eqn:EW.
    + assert (I' : In (k, c) (terms r)) by (apply H; auto). rewrite <- (coef_term KO KS CO KL CL us r k c WR CR I'), ES. reflexivity.
    + apply (coef_zero KS CO CL). intros k' c' I' EQ. apply H in I' as [I1 I2]. rewrite ES in EQ. rewrite <- (WI _ _ I1), EQ, (WI _ _ I) in I2. congruence.
  - assert (Z1 : coef us x ws = c_zero CO) by (apply (coef_zero KS CO CL); intros k c I EQ; apply NX; apply Exists_exists; exists (k, c); auto).
    rewrite Z1. destruct (within t us ws); (apply (coef_zero KS CO CL); intros k c I EQ; apply H in I as [I _]; apply NX; apply Exists_exists; exists (k, c); rewrite ES in EQ; auto).
Qed.

(** Any operation that keeps the terms within t. *)
Lemma make_p_gen (ST : series -> res unit * series) t ss names :
  (forall x, WF x -> let '(out, r) := ST x in
     (out = Ok tt /\ WF r /\ s_ss r = s_ss x /\ s_tag r = t /\ respects KS r /\
      (forall k c, In (k, c) (terms r) <-> In (k, c) (terms x) /\ within t (s_ss x) (ks_exps KS (len (s_ss x)) k) = true)) \/
     (out = Throw overflow_error /\ degree_lost KS t x)) ->
  (forall u, ss = Some u -> sorted_set u /\ Z.of_nat (len u) <= imax int64) ->
  let out := rmap (fun s => x <- make_p_series_one KO CO PO kof ss s ;; outcome (ST x)) names in
  (exists rs, out = Ok rs /\ Forall2 (fun s r => In s (over ss s) /\ is_truncated_symbol (over ss s) s t r) names rs) \/
  (out = Throw invalid_argument /\ exists s, In s names /\ ~ In s (over ss s)) \/
  (key_overflow out /\ exists s, In s names /\ In s (over ss s) /\
     (~ ks_fits KS (unit_exps (over ss s) s) \/ (t <> no_truncation /\ ~ ks_deg_fits KS (selected (counted t) (over ss s) (unit_exps (over ss s) s))))).
Proof.
  intros HS HU out. set (f := fun s => x <- make_p_series_one KO CO PO kof ss s ;; outcome (ST x)) in *.
  assert (ONE : forall s,
    (exists r, f s = Ok r /\ In s (over ss s) /\ is_truncated_symbol (over ss s) s t r) \/ (f s = Throw invalid_argument /\ ~ In s (over ss s)) \/
    (key_overflow (f s) /\ In s (over ss s) /\ (~ ks_fits KS (unit_exps (over ss s) s) \/ (t <> no_truncation /\ ~ ks_deg_fits KS (selected (counted t) (over ss s) (unit_exps (over ss s) s)))))).
  { intros s. unfold f. destruct (make_p_series_one_ok ss s HU) as [(x & -> & IS & WX & TX & SX & DX)|[[-> N]|[KV [IS N]]]]; cbn [bind].
    - specialize (HS x WX). destruct (ST x) as [o r]. unfold outcome. cbn [fst snd]. assert (SO := wf_ss _ _ _ _ WX). assert (CX : covers (s_ss x) x) by (split; [exact SO|apply incl_refl]).
      destruct HS as [(-> & WR & SR & TR & RR & H)|[-> (NT & k & c & I & NF)]]; cbn [bind].
      + left. exists r. split; [reflexivity|]. split; [exact IS|]. split; [exact WR|]. split; [congruence|]. split; [exact TR|]. split; [exact RR|]. intros us ws [CU CI]. rewrite SR in CI.
        rewrite (kept_coef_in t us x r ws WX WR (conj CU CI) SR H), (DX us ws (conj CU CI)). destruct (within t us ws), (vec_eqb ws (unit_exps us s)); reflexivity.
      + right. right. split; [left; reflexivity|]. split; [exact IS|]. right. split; [exact NT|]. rewrite <- SX. intros X. apply NF.
        assert (c <> c_zero CO) as NZ by (eapply wf_nonzero; eauto). assert (LK : len (ks_exps KS (len (s_ss x)) k) = len (s_ss x)) by (apply (kl_len _ _ KL); eapply wf_valid; eauto).
        pose proof (coef_term KO KS CO KL CL (s_ss x) x k c WX CX I) as CT. rewrite DX in CT by exact CX. rewrite spread_self in CT by (try (apply sorted_set_nodup; exact SO); exact LK).
        destruct (vec_eqb _ _) eqn:EV; [|exfalso; congruence]. apply vec_eqb_iff in EV. rewrite EV. exact X.
    - right. left. auto.
    - right. right. split; [destruct KV as [->| ->]; [left|right]; reflexivity|]. auto. }
  clearbody f. destruct (rmap_spec f names) as [(l' & E & F)|(l1 & s & l2 & EQ & _ & H)].
  - left. exists l'. split; [exact E|]. clear E out. induction F as [|s r l l' E F IH]; constructor; [|exact IH]. destruct (ONE s) as [(r' & E' & H)|[[H _]|[[H|H] _]]]; rewrite E in *; try discriminate. injection E' as ->. exact H.
  - right. assert (IN : In s names) by (rewrite EQ; apply in_elt). destruct (ONE s) as [(r' & E' & _)|[[KV NF]|[KV [IS NF]]]].
    + destruct H as [(e & X & _)|[X _]]; rewrite E' in X; discriminate.
    + left. split; [|exists s; auto]. unfold out. destruct H as [(e & X & ->)|[X ->]]; rewrite X in KV; [injection KV as ->; reflexivity|discriminate].
    + right. split; [|exists s; auto]. unfold out. destruct H as [(e & X & ->)|[X ->]], KV as [Y|Y]; rewrite X in Y; try discriminate; injection Y as ->; [left|right]; reflexivity.
Qed.

(** C60. make_p_series with a total or a partial truncation: for each name that symbol, truncated. *)
Theorem make_p_series_t_exact : forall ss tV d names, limit_value tV d -> (forall u, ss = Some u -> sorted_set u /\ Z.of_nat (len u) <= imax int64) ->
  let out := make_p_series_t KO CO PO tD kof ss tV d names in
  let t := total_truncation d in
  (exists rs, out = Ok rs /\ Forall2 (fun s r => In s (over ss s) /\ is_truncated_symbol (over ss s) s t r) names rs) \/
  (out = Throw safe_cast_failure /\ ~ has_value tD d) \/
  (out = Throw invalid_argument /\ exists s, In s names /\ ~ In s (over ss s)) \/
  (key_overflow out /\ exists s, In s names /\ In s (over ss s) /\
     (~ ks_fits KS (unit_exps (over ss s) s) \/ ~ ks_deg_fits KS (selected (counted t) (over ss s) (unit_exps (over ss s) s)))).
Proof.
  intros ss tV d names LV HU out t. unfold out, make_p_series_t. destruct (cast_ok tD HT tV d LV) as [[HV ->]|[HV ->]]; cbn [bind]; [|right; left; auto].
  destruct (make_p_gen (set_truncation KO tD tD d) t ss names) as [H|[H|[H (s & A & B & D)]]]; auto.
  - intros x WX. pose proof (set_truncation_exact KO KS CO tD KL HT DI tD d x WX (conj HT HV)) as H. destruct (set_truncation KO tD tD d x) as [o r]. destruct H as [(-> & WR & SR & LR & TR & RR & H)|[(_ & N & _)|(-> & _ & _ & DL)]]; [left|contradiction|right; auto].
    split; [reflexivity|]. split; [exact WR|]. split; [exact SR|]. split; [exact TR|]. split; [exact RR|]. intros k c. rewrite H. cbn [within t]. rewrite Z.leb_le. reflexivity.
  - right. right. right. split; [exact H|]. exists s. split; [exact A|]. split; [exact B|]. tauto.
Qed.
Theorem make_p_series_p_exact : forall ss tV d tss names, limit_value tV d -> sorted_set tss -> (forall u, ss = Some u -> sorted_set u /\ Z.of_nat (len u) <= imax int64) ->
  let out := make_p_series_p KO CO PO tD kof ss tV d tss names in
  let t := partial_truncation d tss in
  (exists rs, out = Ok rs /\ Forall2 (fun s r => In s (over ss s) /\ is_truncated_symbol (over ss s) s t r) names rs) \/
  (out = Throw safe_cast_failure /\ ~ has_value tD d) \/
  (out = Throw invalid_argument /\ exists s, In s names /\ ~ In s (over ss s)) \/
  (key_overflow out /\ exists s, In s names /\ In s (over ss s) /\
     (~ ks_fits KS (unit_exps (over ss s) s) \/ ~ ks_deg_fits KS (selected (counted t) (over ss s) (unit_exps (over ss s) s)))).
Proof.
  intros ss tV d tss names LV SS HU out t. unfold out, make_p_series_p. destruct (cast_ok tD HT tV d LV) as [[HV ->]|[HV ->]]; cbn [bind]; [|right; left; auto].
  destruct (make_p_gen (set_truncation_p KO tD tD d tss) t ss names) as [H|[H|[H (s & A & B & D)]]]; auto.
  - intros x WX. pose proof (set_truncation_p_exact KO KS CO tD KL HT DI tD d tss x WX (conj HT HV) SS) as H. destruct (set_truncation_p KO tD tD d tss x) as [o r]. destruct H as [(-> & WR & SR & LR & TR & RR & H)|[(_ & N & _)|(-> & _ & _ & DL)]]; [left|contradiction|right; auto].
    split; [reflexivity|]. split; [exact WR|]. split; [exact SR|]. split; [exact TR|]. split; [exact RR|]. intros k c. rewrite H. cbn [within t]. rewrite Z.leb_le. reflexivity.
  - right. right. right. split; [exact H|]. exists s. split; [exact A|]. split; [exact B|]. tauto.
Qed.
(** C60. Without a truncation. *)
Theorem make_p_series_exact : forall ss names, (forall u, ss = Some u -> sorted_set u /\ Z.of_nat (len u) <= imax int64) ->
  let out := make_p_series KO CO PO kof ss names in
  (exists rs, out = Ok rs /\ Forall2 (fun s r => In s (over ss s) /\ is_truncated_symbol (over ss s) s no_truncation r) names rs) \/
  (out = Throw invalid_argument /\ exists s, In s names /\ ~ In s (over ss s)) \/
  (key_overflow out /\ exists s, In s names /\ In s (over ss s) /\ ~ ks_fits KS (unit_exps (over ss s) s)).
Proof.
  intros ss names HU out. assert (EQ : out = rmap (fun s => x <- make_p_series_one KO CO PO kof ss s ;; outcome (Ok tt, set_tag x no_truncation)) names).
  { unfold out, make_p_series. clear out. induction names as [|s l IH]; [reflexivity|]. cbn [rmap]. rewrite IH. destruct (make_p_series_one_ok ss s HU) as [(x & -> & _ & _ & T & _)|[[-> _]|[[->| ->] _]]]; try reflexivity.
    cbn [bind]. unfold outcome. cbn [fst snd bind]. unfold set_tag. rewrite <- T. destruct x; reflexivity. }
  destruct (make_p_gen (fun x => (Ok tt, set_tag x no_truncation)) no_truncation ss names) as [H|[H|[H (s & A & B & D)]]]; rewrite ?EQ; auto.
  - intros x WX. left. split; [reflexivity|]. split; [apply set_tag_wf; exact WX|]. split; [reflexivity|]. split; [reflexivity|]. split; [intros k c I; reflexivity|]. intros k c. cbn [within]. tauto.
  - right. right. split; [exact H|]. exists s. split; [exact A|]. split; [exact B|]. tauto.
Qed.
End GenPS.

(** The constructors of the key types from ranges of ints (C06, C17). *)
Lemma pm_constructs D : packable D -> constructs (pm_sem D) (pm_of_range D int32).
Proof.
  intros HD vs F L. assert (HV : Forall (has_value int32) vs) by (eapply Forall_impl; [|exact F]; intros v [-> | ->]; unfold has_value; cbn; lia).
  destruct (pm_construct_exact D int32 vs HD ltac:(right; exists 32, true; cbn; auto 10) HV L) as [A B]. assert (DEC : representable D vs \/ ~ representable D vs) by (unfold representable; destruct (le_dec (len vs) (max_size D)), (fits D (len vs) vs) eqn:FT; [apply fits_iff in FT|rewrite <- fits_iff, FT| |]; intuition congruence).
  destruct DEC as [R|R]; [left|right; auto].
  split; [exact R|]. destruct (A R) as (p & E & RP & _). exists p. split; [exact E|]. split; [exists vs; exact RP|]. apply pm_exps_rep; auto.
Qed.
Lemma dpm_constructs D ps : packable D -> psize_ok D ps -> constructs (dpm_sem D ps) (dpm_of_range D ps int32).
Proof.
  intros HD G vs F L. assert (HV : Forall (has_value int32) vs) by (eapply Forall_impl; [|exact F]; intros v [-> | ->]; unfold has_value; cbn; lia).
  destruct (dpm_construct_exact D ps int32 vs HD G ltac:(right; exists 32, true; cbn; auto 10) HV) as [A B]. destruct (fits D ps vs) eqn:FT.
  - apply fits_iff in FT. left. split; [exact FT|]. destruct (A FT) as (p & E & _ & RP & _). exists p. split; [exact E|]. split; [exists vs; exact RP|]. apply dpm_exps_rep; auto.
  - right. assert (N : ~ Forall (comp_ok D ps) vs) by (intros H; apply fits_iff in H; congruence). split; [exact N|]. destruct (B N) as [H _]. exact H.
Qed.
