(** Property C90: derivatives and integrals of power series whose result has another coefficient type.  Vocabulary: PSSpec.v ([within], [respects]), CalcSpec.v ([bump]), MixSpec.v ([cf_embedding]). *)
From Coq Require Import ZArith List Bool String Arith Sorted Permutation Lia Ring Ring_theory.
From Verif Require Import Base KpackModel KpackSpec IntModel IntSpec SymModel SymSpec SymProofs P_Sym PMonModel PMonSpec KeyOps KeyInst
  SeriesModel SeriesModel2 SeriesSpec SeriesProofs SeriesProofs2 SeriesProofs3 SeriesProofs4 SeriesProofs5 SeriesProofs6 Lin EvalSpec SeriesEval SeriesProofs7 CfInst P_Series P_Series2
  PolyModel PolyModel2 PolySpec PolyProofs7 PolyProofs8 PolyProofs9 P_Poly PowProofs2 CalcSpec DiffProofs IntegProofs P_Calc P_Integ2 PSModel PSSpec PSProofs P_PS3 P_PS4 MixModel MixModel2 MixSpec MixProofs MixProofs2 P_Mix2 SubsProofs CalcModel2 CalcProofs2 CalcProofs3 P_Calc2.
Import ListNotations.
Open Scope Z_scope.
Open Scope res_scope.
Local Notation len := List.length.

Lemma lower_bound_at s : forall l idx rest, lower_bound l s = (idx, rest) -> lower_bound (firstn idx l ++ s :: rest) s = (idx, s :: rest).
Proof.
  induction l as [|y l IH]; intros idx rest E; cbn [lower_bound] in E.
  - inversion E; subst. cbn [firstn app lower_bound]. destruct (str_lt s s) eqn:X; [|reflexivity]. apply str_lt_iff in X. elim (slt_irrefl _ X).
  - destruct (str_lt y s) eqn:X.
    + destruct (lower_bound l s) as [k r] eqn:E1. inversion E; subst. cbn [firstn app lower_bound]. rewrite X, (IH _ _ eq_refl). reflexivity.
    + inversion E; subst. cbn [firstn app lower_bound]. destruct (str_lt s s) eqn:Y; [|reflexivity]. apply str_lt_iff in Y. elim (slt_irrefl _ Y).
Qed.

Section PPS6.
Context {K C1 C : Type} (KO : key_ops K) (KS : key_sem K) (CO1 : cf_ops C1) (CO : cf_ops C) (PO1 : tbl_policy (K * C1)) (PO : tbl_policy (K * C)) (tD : ity).
Context (KL : key_laws KO KS) (CL1 : cf_laws CO1) (CL : cf_laws CO) (HT : integral_type tD) (DI : degrees_in KS tD) (f : C1 -> C) (EF : cf_embedding CO1 CO f) (F1 : f (c_one CO1) = c_one CO) (F0 : ks_fits KS []).
Notation arg := (series K C1 trunc_t).
Notation out := (series K C trunc_t).
Notation WF1 := (wf KO KS CO1).
Notation WF := (wf KO KS CO).
Notation exps s k := (ks_exps KS (List.length (s_ss s)) k).
Notation coef1 := (coef KS CO1).
Notation coef := (coef KS CO).
Notation "0c" := (c_zero CO).
Infix "+c" := (c_add CO) (at level 50, left associativity).
Infix "*c" := (c_mul CO) (at level 40, left associativity).
Add Ring CringPPS6 : (cl_ring _ CL).
Context (cz : Z -> C) (CZ : int_embedding CO cz).

(** C90. The derivative of a power series with terms that respects its truncation: it has the truncation of x and respects it, and its coefficients are exact; or an exponent, or a degree needed to
    truncate, is not representable.  Missing from the full claim (refuted below): power series without terms lose their truncation and their symbols. *)
Theorem ps_diff_convert_exact_partial : forall (cmulz : C1 -> Z -> C), (forall c n, cmulz c n = f c *c cz n) ->
  forall (x : arg) s, WF1 x -> Z.of_nat (len (s_ss x) + len (s_ss x)) <= imax size_t -> trunc_ok tD (s_tag x) -> respects KS x -> terms x <> [] ->
  (exists r, ps_diff_convert KO CO1 CO PO1 PO tD f cmulz x s = Ok r /\ WF r /\ s_ss r = s_ss x /\ s_tag r = s_tag x /\ respects KS r /\ (~ In s (s_ss x) -> terms r = []) /\
     forall us ws, covers us x -> In s us -> len ws = len us -> coef us r ws = cz (expo us ws s + 1) *c f (coef1 us x (bump us s 1 ws))) \/
  (ps_diff_convert KO CO1 CO PO1 PO tD f cmulz x s = Throw overflow_error /\
    (diff_unrep KS x s \/ exists k c, In (k, c) (terms x) /\ degree_fails KS (s_tag x) (s_ss x) (bump (s_ss x) s (-1) (exps x k)))).
Proof.
  intros cmulz CM x s W B TK RX NE. destruct (ps_diff_convert_loop KO KS CO1 CO PO1 PO tD KL CL1 CL HT DI f EF cz CZ cmulz CM F1 F0 x s W B TK RX) as [(r & E & Wr & _ & SR & TR & DE)|H]; [left|right; exact H].
  assert (NT : forall {X} (a b : X), match terms x with [] => a | _ :: _ => b end = b) by (intros X a b; destruct (terms x); [congruence|reflexivity]). rewrite NT in SR, TR.
  assert (CV0 : covers (s_ss x) x) by (split; [apply (wf_ss _ _ _ _ W)|apply incl_refl]). assert (CR : covers (s_ss x) r) by (split; [apply (wf_ss _ _ _ _ W)|rewrite SR; apply incl_refl]).
  assert (NI0 : ~ In s (s_ss x) -> terms r = []).
  { intros NI. destruct (terms r) as [|[k c] l] eqn:T; [reflexivity|]. exfalso. assert (I : In (k, c) (terms r)) by (rewrite T; left; reflexivity).
    apply (wf_nonzero _ _ _ _ Wr k c I). rewrite <- (coef_term KO KS CO KL CL (s_ss x) r k c Wr CR I), coef_nden, DE by exact CV0. unfold fvt. rewrite map_map.
    assert (X : forall Q l, psum CO Q (map (fun e : K * C1 => dterm CO cz (s_ss x) s (spread (s_ss x) (s_ss x) (exps x (fst e)), f (snd e))) l) = 0c).
    { intros Q l0. induction l0 as [|e l0 IH]; [reflexivity|]. cbn [map]. rewrite (psum_cons CO CL), IH. cbn [DiffProofs.dterm fst snd]. rewrite expo_notin by exact NI. rewrite (ie_zero _ _ CZ). destruct (Q _); cbn [ifP]; ring. }
    apply X. }
  assert (CO2 : forall us ws, covers us x -> In s us -> len ws = len us -> coef us r ws = cz (expo us ws s + 1) *c f (coef1 us x (bump us s 1 ws))).
  { intros us ws CV IS L. rewrite coef_nden, DE by exact CV. rewrite (dterm_coef CO CL cz) by (auto; unfold fvt; intros e I; apply in_map_iff in I as (e' & <- & _); cbn [fst]; apply spread_len). rewrite (fvt_psum KS CO1 CO CL1 CL f EF), <- coef_nden. reflexivity. }
  exists r. split; [exact E|]. split; [exact Wr|]. split; [exact SR|]. split; [exact TR|]. split; [|split; [exact NI0|exact CO2]].
  intros k c I. rewrite TR, SR. destruct (in_dec string_dec s (s_ss x)) as [IS|IS]; [|rewrite (NI0 IS) in I; destruct I].
  assert (LK : len (ks_exps KS (len (s_ss x)) k) = len (s_ss x)) by (apply (kl_len _ _ KL); rewrite <- SR; eapply wf_valid; eauto).
  pose proof (coef_term KO KS CO KL CL (s_ss x) r k c Wr CR I) as CT. rewrite SR, spread_self in CT by (auto; apply sorted_set_nodup, (wf_ss _ _ _ _ W)). rewrite CO2 in CT by auto.
  apply (within_bump (s_tag x) s); [exact LK|]. assert (NZ : coef1 (s_ss x) x (bump (s_ss x) s 1 (ks_exps KS (len (s_ss x)) k)) <> c_zero CO1) by (intros X; rewrite X, (emb_zero _ _ _ EF) in CT; apply (wf_nonzero _ _ _ _ Wr k c I); rewrite <- CT; ring).
  apply (coef_nonzero KO KS CO1 KL CL1 (s_ss x) x) in NZ; auto. destruct NZ as (k' & c' & J & EQ). rewrite spread_self in EQ; [|apply sorted_set_nodup, (wf_ss _ _ _ _ W)|apply (kl_len _ _ KL); eapply wf_valid; eauto]. rewrite <- EQ. eapply RX; eauto.
Qed.

(** C90. The integral in a symbol of x, if no term of the integral exceeds the truncation.  Missing from the full claim (refuted below): the terms that exceed it are not removed; power series without
    terms lose their truncation and their symbols. *)
Theorem ps_integrate_convert_exact_partial : forall (cdiv : C1 -> Z -> res C), (forall c n, n <> 0 -> exists q, cdiv c n = Ok q) ->
  forall (x : arg) s, WF1 x -> Z.of_nat (len (s_ss x) + len (s_ss x)) <= imax size_t -> trunc_ok tD (s_tag x) -> terms x <> [] -> In s (s_ss x) ->
  (forall k c, In (k, c) (terms x) -> within (s_tag x) (s_ss x) (bump (s_ss x) s 1 (exps x k)) = true) ->
  (exists r, ps_integrate_convert KO CO1 CO PO1 PO tD f cdiv x s = Ok r /\ WF r /\ s_ss r = s_ss x /\ s_tag r = s_tag x /\ respects KS r /\ ~ integ_domain KS x s /\ ~ integ_unrep KS (s_ss x) x s /\
      forall us ws, covers us x -> len ws = len us ->
        (expo us ws s <> -1 -> coef1 us x ws <> c_zero CO1 -> cdiv (coef1 us x ws) (expo us ws s + 1) = Ok (coef us r (bump us s 1 ws))) /\
        (expo us ws s <> -1 -> coef1 us x ws = c_zero CO1 -> coef us r (bump us s 1 ws) = 0c) /\
        (expo us ws s = 0 -> coef us r ws = 0c)) \/
  (ps_integrate_convert KO CO1 CO PO1 PO tD f cdiv x s = Throw domain_error /\ integ_domain KS x s) \/
  (ps_integrate_convert KO CO1 CO PO1 PO tD f cdiv x s = Throw overflow_error /\
    (integ_unrep KS (s_ss x) x s \/ exists k c, In (k, c) (terms x) /\ degree_fails KS (s_tag x) (s_ss x) (bump (s_ss x) s 1 (exps x k)))).
Proof.
  intros cdiv CD x s W B TK NE IS RX. pose proof (wf_ss _ _ _ _ W) as SS. unfold ps_integrate_convert, integrate_convert. cbv zeta. destruct (lower_bound (s_ss x) s) as [idx rest] eqn:EL. destruct (lower_bound_spec _ _ _ _ EL) as (A & B' & L & D & F).
  assert (ER : exists q, rest = s :: q).
  { pose proof IS as IS'. destruct rest as [|y q]; [rewrite A in IS'; rewrite List.app_nil_r in IS'; apply D in IS'; elim (slt_irrefl _ IS')|]. exists q. f_equal. rewrite A in IS'. apply in_app_or in IS' as [IS'|[IS'|IS']]; [apply D in IS'; elim (slt_irrefl _ IS')|exact IS'|].
    assert (X : sorted_set (y :: q)). { rewrite B'. clear -SS. revert SS. generalize (s_ss x). induction idx as [|n IH]; intros l S; [exact S|]. destruct l; [constructor|]. inversion_clear S. cbn [skipn]. apply IH. auto. }
    inversion_clear X as [|? ? _ FF]. rewrite Forall_forall in FF. elim F. apply FF. exact IS'. }
  destruct ER as [q ->]. rewrite String.eqb_refl. cbn [negb]. assert (EI : nth_error (s_ss x) idx = Some s). { rewrite A. rewrite nth_error_app2; rewrite firstn_length; [|lia]. rewrite Nat.min_l by lia. rewrite Nat.sub_diag. reflexivity. }
  destruct (ps_integrate_convert_loop KO KS CO1 CO PO1 PO tD KL CL1 CL HT DI f EF F1 F0 cdiv CD x s idx W B EI TK RX) as [(r & E & Wr & _ & SR & TR & ND & NU & DE)|H]; [left|right; exact H].
  assert (NT : forall {X} (a b : X), match terms x with [] => a | _ :: _ => b end = b) by (intros X a b; destruct (terms x); [congruence|reflexivity]). rewrite NT in SR, TR.
  assert (CV0 : covers (s_ss x) x) by (split; [exact SS|apply incl_refl]). assert (CR : covers (s_ss x) r) by (split; [exact SS|rewrite SR; apply incl_refl]).
  exists r. split; [exact E|]. split; [exact Wr|]. split; [exact SR|]. split; [exact TR|]. split.
  - intros k c I. rewrite TR, SR. pose proof (coef_term KO KS CO KL CL (s_ss x) r k c Wr CR I) as CT. assert (LK : len (ks_exps KS (len (s_ss x)) k) = len (s_ss x)) by (apply (kl_len _ _ KL); rewrite <- SR; eapply wf_valid; eauto).
    rewrite SR, spread_self in CT by (auto; apply sorted_set_nodup; auto). rewrite coef_nden, DE in CT by exact CV0. set (v := ks_exps KS (len (s_ss x)) k) in *.
    destruct (in_dec (list_eq_dec Z.eq_dec) v (map fst (map (iterm1 CO cdiv (s_ss x) s) (vt KS (s_ss x) x)))) as [J|J].
    + rewrite map_map in J. apply in_map_iff in J as ([w d] & EQ & J). cbn [iterm1 fst] in EQ. unfold vt in J. apply in_map_iff in J as ([k' c'] & EQ' & J). apply (f_equal fst) in EQ'. cbn [fst] in EQ'. rewrite spread_self in EQ'; [|apply sorted_set_nodup; auto|apply (kl_len _ _ KL); eapply wf_valid; eauto].
      rewrite <- EQ, <- EQ'. eapply RX; eauto.
    + exfalso. apply (wf_nonzero _ _ _ _ Wr k c I). rewrite <- CT. apply (psum_none CO CL). exact J.
  - split; [exact ND|]. split; [exact NU|]. intros us ws CV LW. pose proof CV as [SU IU]. rewrite !coef_nden, !DE, <- !vt_psum by exact CV.
    assert (X : expo us ws s <> -1 -> psum CO (fun v => vec_eqb v (bump us s 1 ws)) (map (iterm1 CO cdiv us s) (vt KS us x)) = if c_is_zero CO1 (psum CO1 (fun v => vec_eqb v ws) (vt KS us x)) then 0c else quot1 CO cdiv (psum CO1 (fun v => vec_eqb v ws) (vt KS us x)) (expo us ws s + 1)).
    { intros HE. apply (iterm1_coef CO1 CO CL1 CL cdiv); auto; [intros e; apply vt_len|apply (vt_nodup KO KS CO1 KL); auto|]. intros v c J. unfold vt in J. apply in_map_iff in J as ([k c'] & EQ & J). apply (f_equal snd) in EQ. cbn [snd] in EQ. subst c'. exact (wf_nonzero _ _ _ _ W k c J). }
    split; [|split].
    + intros N NZ. rewrite (X N). destruct (c_is_zero CO1 (psum CO1 (fun v => vec_eqb v ws) (vt KS us x))) eqn:EZ; [apply (cl_zero _ CL1) in EZ; contradiction|]. apply (quot1_ok CO cdiv CD). lia.
    + intros N EZ. rewrite (X N). apply (cl_zero _ CL1) in EZ. rewrite EZ. reflexivity.
    + intros HE. apply (iterm1_zero CO CL cdiv); auto. intros e J. split; [eapply vt_len; eauto|]. unfold vt in J. apply in_map_iff in J as ([k c] & <- & J). cbn [fst]. rewrite expo_spread' by (auto; apply sorted_set_nodup; auto). intros Y. apply ND. exists k, c. auto.
Qed.
(** C90. The integral in a symbol that x does not have, if no term of the integral exceeds the truncation: the symbol is added, and the coefficient of m s is the quotient of the coefficient of m and 1. *)
Theorem ps_integrate_convert_missing_partial : forall (cdiv : C1 -> Z -> res C), (forall c n, n <> 0 -> exists q, cdiv c n = Ok q) ->
  forall (x : arg) s u, WF1 x -> 2 * (Z.of_nat (len (s_ss x)) + 1) <= imax size_t -> trunc_ok tD (s_tag x) -> terms x <> [] -> ~ In s (s_ss x) -> with_symbol (s_ss x) s u ->
  (forall k c, In (k, c) (terms x) -> within (s_tag x) u (bump u s 1 (spread (s_ss x) u (exps x k))) = true) ->
  (exists r, ps_integrate_convert KO CO1 CO PO1 PO tD f cdiv x s = Ok r /\ WF r /\ s_ss r = u /\ s_tag r = s_tag x /\ respects KS r /\ ~ integ_unrep KS u x s /\
      forall us ws, sorted_set us -> incl u us -> len ws = len us ->
        (expo us ws s = 0 -> coef1 us x ws <> c_zero CO1 -> cdiv (coef1 us x ws) 1 = Ok (coef us r (bump us s 1 ws))) /\
        (expo us ws s <> 0 -> coef us r (bump us s 1 ws) = 0c) /\
        (coef1 us x ws = c_zero CO1 -> coef us r (bump us s 1 ws) = 0c)) \/
  (key_overflow (ps_integrate_convert KO CO1 CO PO1 PO tD f cdiv x s) /\
    (unrep KS u x \/ integ_unrep KS u x s \/ full (s_log2 x) (len (terms x)) \/
     exists k c, In (k, c) (terms x) /\ degree_fails KS (s_tag x) u (bump u s 1 (spread (s_ss x) u (exps x k))))).
Proof.
  intros cdiv CD x s u0 W BB TK NE IS WU0 RX. pose proof (wf_ss _ _ _ _ W) as SS.
  destruct (lower_bound (s_ss x) s) as [idx rest] eqn:EL. destruct (lower_bound_spec _ _ _ _ EL) as (A & B & L & D & F).
  assert (NR : match rest with y :: _ => y <> s | [] => True end). { destruct rest as [|y q]; [exact I|]. intros ->. apply IS. rewrite A. apply in_or_app. right. left. reflexivity. }
  set (u := firstn idx (s_ss x) ++ s :: rest) in *. assert (SU : sorted_set u) by (eapply sorted_insert; eauto).
  assert (IU : with_symbol (s_ss x) s u). { split; [exact SU|]. intros z. unfold u. rewrite A at 2. rewrite !in_app_iff. cbn [In]. split; intros H; [destruct H as [H|[H|H]]; auto|destruct H as [[H|H]|H]; auto]. }
  assert (UU : u0 = u). { destruct WU0 as [S0 I0]. destruct IU as [_ I1]. apply sorted_ext; auto. intros z. rewrite I0, I1. reflexivity. }
  subst u0.
  assert (MS : match rest with y :: _ => negb (String.eqb y s) | [] => true end = true) by (destruct rest as [|y q]; [reflexivity|]; destruct (String.eqb_spec y s); [contradiction|reflexivity]).
  assert (EP : ps_integrate_convert KO CO1 CO PO1 PO tD f cdiv x s = bind (extend_to KO CO1 PO1 ps_tag_ops (s_tag x) true (fun c => c) u x [(idx, [s])]) (fun a => integrate_convert_at KO CO1 CO PO1 PO ps_tag_ops f (ps_loop_ops KO CO1 CO PO1 PO tD f) cdiv a idx)).
  { unfold ps_integrate_convert, integrate_convert. cbv zeta. rewrite EL, MS. reflexivity. }
  rewrite EP. clear MS EP.
  assert (LU : len u = S (len (s_ss x))). { unfold u. rewrite A at 2. rewrite !app_length. cbn [List.length]. lia. }
  assert (EU : insert_all (ins_at [(idx, [s])]) 0 (s_ss x) = u) by (unfold u; rewrite B; apply (insert_one s (s_ss x) idx 0 L)).
  assert (IM : ins_map_ok (len (s_ss x)) [(idx, [s])]) by (split; repeat constructor; cbn; [exact L|discriminate]).
  assert (INC : incl (s_ss x) u) by (intros z J; apply IU; auto).
  destruct (extend_ok KO KS CO1 CO1 PO1 ps_tag_ops KL CL1 (fun c => c) eq_refl (fun _ _ => eq_refl) (s_tag x) true x [(idx, [s])] u W IM EU SU (or_introl eq_refl)) as [(a & EA & Wa & SA & TA & LA & DA & NA)|(KV & H)].
  - rewrite EA. cbn [bind]. assert (OV : over_u KO KS CO1 u x a). { split; [exact Wa|]. split; [exact SA|]. split; [exact NA|]. intros ws. rewrite !coef_nden. unfold nden at 1. rewrite DA, SA. apply (vden_spread KS CO1 u u x (fun v => vec_eqb v ws) INC). }
    assert (EI : nth_error (s_ss a) idx = Some s). { rewrite SA. unfold u. rewrite nth_error_app2; rewrite firstn_length; [|lia]. rewrite Nat.min_l by lia. rewrite Nat.sub_diag. reflexivity. }
    assert (VS : forall us, sorted_set us -> incl u us -> same CO1 (vt KS us a) (vt KS us x)). { intros us SUS IUS. apply (same_eqb CO1 CL1). intros v. eapply vt_same; eauto. }
    assert (TD : forall k c, In (k, c) (terms a) -> exists k' c', In (k', c') (terms x) /\ exps a k = spread (s_ss x) u (exps x k')).
    { intros k c J. destruct (over_term KO KS CO1 KL CL1 u x a k c W SU INC OV J) as (k' & c' & J' & EK). exists k', c'. rewrite SA in *. auto. }
    assert (TU : forall k c, In (k, c) (terms x) -> exists k' c', In (k', c') (terms a) /\ exps a k' = spread (s_ss x) u (exps x k)).
    { intros k c J. destruct (over_term' KO KS CO1 KL CL1 u x a k c W SU INC OV J) as (k' & c' & J' & EK). exists k', c'. rewrite SA in *. auto. }
    assert (LX : forall k c, In (k, c) (terms x) -> expo u (spread (s_ss x) u (exps x k)) s = 0) by (intros k c J; rewrite expo_spread' by (auto; apply sorted_set_nodup; exact SU); apply expo_notin; exact IS).
    assert (NEa : terms a <> []). { destruct (terms x) as [|[k c] lx] eqn:TX; [contradiction|]. destruct (TU k c (or_introl eq_refl)) as (k' & c' & J' & _). intros E0. rewrite E0 in J'. destruct J'. }
    assert (ISa : In s (s_ss a)) by (rewrite SA; apply IU; auto).
    assert (RA : forall k c, In (k, c) (terms a) -> within (s_tag a) (s_ss a) (bump (s_ss a) s 1 (exps a k)) = true). { intros k c J. destruct (TD k c J) as (k' & c' & J' & EK). rewrite EK, TA, SA. eapply RX; eauto. }
    assert (PA : ps_integrate_convert KO CO1 CO PO1 PO tD f cdiv a s = integrate_convert_at KO CO1 CO PO1 PO ps_tag_ops f (ps_loop_ops KO CO1 CO PO1 PO tD f) cdiv a idx).
    { unfold ps_integrate_convert, integrate_convert. cbv zeta. assert (LB : lower_bound (s_ss a) s = (idx, s :: rest)); [|rewrite LB, String.eqb_refl; reflexivity].
      rewrite SA. apply lower_bound_at; exact EL. }
    rewrite <- PA.
    destruct (ps_integrate_convert_exact_partial cdiv CD a s Wa ltac:(rewrite SA, LU; lia) ltac:(rewrite TA; exact TK) NEa ISa RA) as [(r & ER & Wr & R1 & R2 & R3 & R4 & R5 & R6)|[[H1 H2]|[H1 H2]]].
    + left. exists r. split; [exact ER|]. split; [exact Wr|]. split; [rewrite R1; exact SA|]. split; [rewrite R2; exact TA|]. split; [exact R3|]. split.
      { intros (k & c & J & N). destruct (TU k c J) as (k' & c' & J' & EK). apply R5. exists k', c'. split; [exact J'|]. rewrite spread_self; [|apply sorted_set_nodup, (wf_ss _ _ _ _ Wa)|eapply exps_len; eauto]. rewrite EK, SA. exact N. }
      intros us ws SUS IUS LW. destruct (R6 us ws ltac:(split; [exact SUS|rewrite SA; exact IUS]) LW) as (R7 & R8 & R9).
      assert (CE : coef1 us a ws = coef1 us x ws) by (rewrite !coef_nden, <- !vt_psum; apply VS; auto). rewrite CE in *.
      assert (INX : incl (s_ss x) us) by (intros z J; apply IUS, INC, J).
      assert (CZ0 : expo us ws s <> 0 -> coef1 us x ws = c_zero CO1).
      { intros N. destruct (c_is_zero CO1 (coef1 us x ws)) eqn:EZ; [apply (cl_zero _ CL1) in EZ; exact EZ|]. exfalso. apply N. assert (NZ : coef1 us x ws <> c_zero CO1) by (intros E0; apply (cl_zero _ CL1) in E0; congruence).
        apply (coef_nonzero KO KS CO1 KL CL1 us x) in NZ; [|exact W|split; auto]. destruct NZ as (k & c & J & EK). rewrite <- EK. rewrite expo_spread' by (auto; apply sorted_set_nodup; auto). apply expo_notin. exact IS. }
      assert (BZ : coef1 us x ws = c_zero CO1 -> coef us r (bump us s 1 ws) = 0c).
      { intros E0. destruct (Z.eq_dec (expo us ws s) (-1)) as [EM|EM]; [|apply R8; auto].
        apply (R6 us (bump us s 1 ws)); [split; [exact SUS|rewrite SA; exact IUS]|rewrite bump_len; auto|]. rewrite expo_bump, String.eqb_refl by exact LW. destruct (in_dec string_dec s us) as [_|N]; [lia|]. elim N. apply IUS, IU. auto. }
      split; [|split; [|exact BZ]].
      * intros N NZ. rewrite <- R7 by (auto; lia). rewrite N. reflexivity.
      * intros N. apply BZ, CZ0, N.
    + exfalso. destruct H2 as (k & c & J & N). destruct (TD k c J) as (k' & c' & J' & EK). rewrite EK, SA, (LX k' c' J') in N. discriminate.
    + right. split; [left; exact H1|]. destruct H2 as [(k & c & J & N)|(k & c & J & N)]; destruct (TD k c J) as (k' & c' & J' & EK).
      * right. left. exists k', c'. split; [exact J'|]. rewrite EK, SA in N. rewrite spread_self in N; auto; [apply sorted_set_nodup; exact SU|]. apply spread_len.
      * right. right. right. exists k', c'. split; [exact J'|]. rewrite EK, SA, TA in N. exact N.
  - right. assert (KV' : key_overflow (extend_to KO CO1 PO1 ps_tag_ops (s_tag x) true (fun c => c) u x [(idx, [s])])) by exact KV. split; [destruct KV as [-> | ->]; [left|right]; reflexivity|]. destruct H as [H|H]; [left; exact H|right; right; left; exact H].
Qed.
End PPS6.
Print Assumptions ps_diff_convert_exact_partial.
Print Assumptions ps_integrate_convert_exact_partial.
Print Assumptions ps_integrate_convert_missing_partial.

(** * Non-vacuity, and the two findings: coefficients of type int, results of type long long (f is the identity on the integers that fit). *)
Notation tD := (kd_ty kd_int64).
Notation Dc := (ps_diff_convert exK Z_cf Z_cf exP exP tD (fun c => c) Z.mul).
Notation Ic := (ps_integrate_convert exK Z_cf Z_cf exP exP tD (fun c => c) int_div).
Example ex_ps_diff_convert : exists r, Dc ps_x "a"%string = Ok r /\ s_tag r = total_truncation 2 /\ series_size r = 2%nat /\ coef exS Z_cf ["a"; "b"]%string r [0; 1] = 5 /\ coef exS Z_cf ["a"; "b"]%string r [0; 0] = 2.
Proof. eexists. do 4 (split; [vm_compute; reflexivity|]). vm_compute; reflexivity. Qed.
Lemma ps_x_respects : respects exS ps_x.
Proof.
  intros k c I. assert (F : forallb (fun e => within (s_tag ps_x) (s_ss ps_x) (ks_exps exS (len (s_ss ps_x)) (fst e))) (terms ps_x) = true) by (vm_compute; reflexivity). apply (proj1 (forallb_forall _ _) F (k, c) I).
Qed.
Definition ps_e := psb (total_truncation 2) ["a"]%string 0 [].
Definition ps_f := psb (total_truncation 1) ["a"; "b"]%string 0 [([1; 0], 2); ([0; 1], 4)].
Definition ps_g := psb (total_truncation 3) ["a"; "b"]%string 0 [([1; 0], 2); ([0; 1], 4)].
Example ex_ps_integrate_convert : exists r, Ic ps_g "a"%string = Ok r /\ s_tag r = total_truncation 3 /\ series_size r = 2%nat /\ coef exS Z_cf ["a"; "b"]%string r [2; 0] = 1 /\ coef exS Z_cf ["a"; "b"]%string r [1; 1] = 4.
Proof. eexists. do 4 (split; [vm_compute; reflexivity|]). vm_compute; reflexivity. Qed.

Example ex_ps_integrate_missing : with_symbol (s_ss ps_g) "c"%string ["a"; "b"; "c"]%string /\
  forallb (fun e => within (s_tag ps_g) ["a"; "b"; "c"]%string (bump ["a"; "b"; "c"]%string "c"%string 1 (spread (s_ss ps_g) ["a"; "b"; "c"]%string (ks_exps exS (len (s_ss ps_g)) (fst e))))) (terms ps_g) = true /\
  exists r, Ic ps_g "c"%string = Ok r /\ s_tag r = total_truncation 3 /\ series_size r = 2%nat /\ coef exS Z_cf ["a"; "b"; "c"]%string r [1; 0; 1] = 2 /\ coef exS Z_cf ["a"; "b"; "c"]%string r [0; 1; 1] = 4.
Proof.
  split; [|split; [vm_compute; reflexivity|eexists; do 4 (split; [vm_compute; reflexivity|]); vm_compute; reflexivity]].
  replace (s_ss ps_g) with ["a"; "b"]%string by (vm_compute; reflexivity). split; [repeat constructor|]. intros z. cbn [In]. split; [intros [H|[H|[H|[]]]]|intros [[H|[H|[]]]|H]]; subst; auto.
Qed.

(** C90, refuted: the derivative keeps the truncation.  That of a power series truncated to degree 2 without terms is not truncated, and has no symbols. *)
Theorem ps_diff_convert_truncation_refuted :
  ~ (forall (x r : series Z Z trunc_t) s, wf exK exS Z_cf x -> trunc_ok tD (s_tag x) -> respects exS x -> Dc x s = Ok r -> s_tag r = s_tag x).
Proof.
  intros H. assert (E : exists r, Dc ps_e "a"%string = Ok r /\ s_tag r = no_truncation) by (eexists; split; vm_compute; reflexivity). destruct E as (r & E & T).
  specialize (H ps_e r "a"%string). rewrite T in H. assert (W : wf exK exS Z_cf ps_e) by (apply psb_wf; [repeat constructor|lia|vm_compute; reflexivity]).
  assert (X : no_truncation = s_tag ps_e); [|vm_compute in X; discriminate X]. apply H; [exact W| | |exact E].
  - replace (s_tag ps_e) with (total_truncation 2) by (vm_compute; reflexivity). split; vm_compute; congruence.
  - intros k c I. assert (Y : terms ps_e = []) by (vm_compute; reflexivity). rewrite Y in I. destruct I.
Qed.
(** C90, refuted: the integral respects its truncation.  That of 2 a + 4 b, truncated to degree 1, in a, has a term of degree 2. *)
Theorem ps_integrate_convert_respects_refuted :
  ~ (forall (x r : series Z Z trunc_t) s, wf exK exS Z_cf x -> trunc_ok tD (s_tag x) -> respects exS x -> terms x <> [] -> Ic x s = Ok r -> respects exS r).
Proof.
  intros H. assert (E : is_ok (Ic ps_f "a"%string) = true) by (vm_compute; reflexivity). apply (get_ok (series_default ps_tag_ops)) in E.
  specialize (H ps_f (get (series_default ps_tag_ops) (Ic ps_f "a"%string)) "a"%string). assert (W : wf exK exS Z_cf ps_f) by (apply psb_wf; [repeat constructor|lia|vm_compute; reflexivity]).
  assert (R : respects exS (get (series_default ps_tag_ops) (Ic ps_f "a"%string))).
  { apply H; [exact W| | | |exact E].
    - replace (s_tag ps_f) with (total_truncation 1) by (vm_compute; reflexivity). split; vm_compute; congruence.
    - intros k c I. assert (F : forallb (fun e => within (s_tag ps_f) (s_ss ps_f) (ks_exps exS (len (s_ss ps_f)) (fst e))) (terms ps_f) = true) by (vm_compute; reflexivity). apply (proj1 (forallb_forall _ _) F (k, c) I).
    - intros X. apply (f_equal (@List.length _)) in X. vm_compute in X. discriminate X. }
  assert (F : forallb (fun e => within (s_tag (get (series_default ps_tag_ops) (Ic ps_f "a"%string))) (s_ss (get (series_default ps_tag_ops) (Ic ps_f "a"%string))) (ks_exps exS (len (s_ss (get (series_default ps_tag_ops) (Ic ps_f "a"%string)))) (fst e))) (terms (get (series_default ps_tag_ops) (Ic ps_f "a"%string))) = false) by (vm_compute; reflexivity).
  revert F R. generalize (get (series_default ps_tag_ops) (Ic ps_f "a"%string)). clear. intros r F R. assert (T : forallb (fun e => within (s_tag r) (s_ss r) (ks_exps exS (len (s_ss r)) (fst e))) (terms r) = true); [|congruence].
  apply forallb_forall. intros [k c] I. exact (R k c I).
Qed.
Print Assumptions ps_diff_convert_truncation_refuted.
Print Assumptions ps_integrate_convert_respects_refuted.
