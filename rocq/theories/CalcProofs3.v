(** Differentiation and integration of power series with another coefficient type: the loops. *)
From Coq Require Import ZArith List Bool String Arith Sorted Permutation Lia Ring Ring_theory.
From Verif Require Import Base IntModel IntSpec SymModel SymSpec SymProofs P_Sym PMonSpec KeyOps
  SeriesModel SeriesModel2 SeriesSpec SeriesProofs SeriesProofs2 SeriesProofs3 SeriesProofs4 SeriesProofs5 SeriesProofs6 Lin EvalSpec SeriesEval SeriesProofs7 P_Series P_Series2
  PolyModel PolyModel2 PolySpec PolyProofs7 PolyProofs8 PolyProofs9 P_Poly PowProofs2 CalcSpec DiffProofs IntegProofs P_Calc PSModel PSSpec PSProofs P_PS3 MixModel MixModel2 MixSpec MixProofs MixProofs2 P_Mix2 SubsProofs CalcModel2 CalcProofs2.
Import ListNotations.
Open Scope Z_scope.
Open Scope res_scope.
Local Notation len := List.length.

(** The exponents [v] cannot be summed, over the symbols counted by t, in the degree type. *)
Definition degree_fails {K} (KS : key_sem K) (t : trunc_t) (ss : symbol_set) (v : list Z) : Prop := t <> no_truncation /\ ~ ks_deg_fits KS (selected (counted t) ss v).

Section CP3.
Context {K C1 C : Type} (KO : key_ops K) (KS : key_sem K) (CO1 : cf_ops C1) (CO : cf_ops C) (PO1 : tbl_policy (K * C1)) (PO : tbl_policy (K * C)) (tD : ity).
Context (KL : key_laws KO KS) (CL1 : cf_laws CO1) (CL : cf_laws CO) (HT : integral_type tD) (DI : degrees_in KS tD) (f : C1 -> C) (EF : cf_embedding CO1 CO f).
Notation TO := ps_tag_ops.
Notation arg := (series K C1 trunc_t).
Notation out := (series K C trunc_t).
Notation WF1 := (wf KO KS CO1).
Notation WF := (wf KO KS CO).
Notation exps s k := (ks_exps KS (List.length (s_ss s)) k).
Infix "+c" := (c_add CO) (at level 50, left associativity).
Infix "*c" := (c_mul CO) (at level 40, left associativity).
Add Ring CringC3 : (cl_ring _ CL).
Notation PLO := (ps_loop_ops KO CO1 CO PO1 PO tD f).
Notation partial_sum := (partial_sum KO KS CO).

Lemma visit_same {D1 D2} (op : series K D1 trunc_t -> series K D2 trunc_t -> res out) x y : s_tag x = s_tag y -> mix_ps_visit KO tD op x y = (ret <- op x y ;; Ok (set_tag ret (s_tag x))).
Proof.
  intros E. unfold mix_ps_visit. rewrite <- E. destruct (s_tag x) as [|d|d s]; [reflexivity| |].
  - rewrite Z.eqb_refl. reflexivity.
  - rewrite Z.eqb_refl, (proj2 (ss_eqb_iff s s) eq_refl). reflexivity.
Qed.
Lemma visit_adopt {D1 D2} (op : series K D1 trunc_t -> series K D2 trunc_t -> res out) x y : s_tag x = no_truncation -> s_tag y <> no_truncation -> mix_ps_visit KO tD op x y = (ret <- op x y ;; ps_truncate KO tD (set_tag ret (s_tag y))).
Proof. intros E N. unfold mix_ps_visit. rewrite E. destruct (s_tag y); [congruence| |]; reflexivity. Qed.
Lemma nden_tag us (r : out) t Q : nden KS CO us (set_tag r t) Q = nden KS CO us r Q.
Proof. reflexivity. Qed.
Lemma nden_same us (r r' : out) Q : terms r' = terms r -> s_ss r' = s_ss r -> nden KS CO us r' Q = nden KS CO us r Q.
Proof. intros E S. unfold nden, vden. rewrite E, S. reflexivity. Qed.
Lemma trunc_dec (a b : trunc_t) : {a = b} + {a <> b}. Proof. repeat decide equality. Qed.

(** A term of the accumulated sum is a term of the addend, when there was nothing before. *)
Lemma sum_terms {D} (COD : cf_ops D) (CLD : cf_laws COD) (h : D -> C) (x : arg) (r r' : out) (y : series K D trunc_t) : h (c_zero COD) = c_zero CO ->
  terms r = [] -> WF r' -> s_ss r' = s_ss x -> wf KO KS COD y -> s_ss y = s_ss x -> (forall us Q, nden KS CO us r' Q = nden KS CO us r Q +c h (nden KS COD us y Q)) ->
  forall k c, In (k, c) (terms r') -> exists k' c', In (k', c') (terms y) /\ exps x k' = exps x k.
Proof.
  intros H0 TR W' S' Wy Sy DE k c I. pose proof (wf_ss _ _ _ _ W') as SX. rewrite S' in SX.
  assert (CR : covers (s_ss x) r') by (split; [exact SX|rewrite S'; apply incl_refl]). assert (CY : covers (s_ss x) y) by (split; [exact SX|rewrite Sy; apply incl_refl]).
  pose proof (coef_term KO KS CO KL CL (s_ss x) r' k c W' CR I) as CT. rewrite coef_nden, DE in CT. assert (nden KS CO (s_ss x) r (fun v => vec_eqb v (spread (s_ss r') (s_ss x) (exps r' k))) = c_zero CO) as E0 by (unfold nden, vden; rewrite TR; reflexivity). rewrite E0, <- coef_nden in CT.
  assert (NZ : coef KS COD (s_ss x) y (spread (s_ss r') (s_ss x) (exps r' k)) <> c_zero COD). { intros X. rewrite X, H0 in CT. apply (wf_nonzero _ _ _ _ W' k c I). rewrite <- CT. ring. }
  apply (coef_nonzero KO KS COD KL CLD (s_ss x) y) in NZ; auto. destruct NZ as (k' & c' & J & EQ). exists k', c'. split; [exact J|].
  rewrite S', Sy in EQ. rewrite !spread_self in EQ; auto; try (apply sorted_set_nodup; exact SX).
  - apply (kl_len _ _ KL). rewrite <- S'. eapply wf_valid; eauto.
  - apply (kl_len _ _ KL). rewrite <- Sy. eapply wf_valid; eauto.
Qed.

(** The operator += of the loops. *)
Lemma ps_acc_ok {D} (COD : cf_ops D) (POD : tbl_policy (K * D)) (CLD : cf_laws COD) (h : D -> C) (x : arg) (r : out) (y : series K D trunc_t) :
  h (c_zero COD) = c_zero CO -> (forall a b, h (c_add COD a b) = h a +c h b) ->
  WF1 x -> Z.of_nat (len (s_ss x) + len (s_ss x)) <= imax size_t -> trunc_ok tD (s_tag x) -> partial_sum x r -> (s_tag r = s_tag x \/ (s_tag r = no_truncation /\ terms r = [])) ->
  wf KO KS COD y -> s_ss y = s_ss x -> s_log2 y = O -> s_tag y = s_tag x -> (forall k c, In (k, c) (terms y) -> within (s_tag x) (s_ss x) (exps x k) = true) ->
  (exists r', mix_ps_in_place KO CO PO COD POD tD true h r y = Ok r' /\ partial_sum x r' /\ s_ss r' = s_ss x /\ s_tag r' = s_tag x /\ forall us Q, nden KS CO us r' Q = nden KS CO us r Q +c h (nden KS COD us y Q)) \/
  (mix_ps_in_place KO CO PO COD POD tD true h r y = Throw overflow_error /\ exists k c, In (k, c) (terms y) /\ degree_fails KS (s_tag x) (s_ss x) (exps x k)).
Proof.
  intros H0 HA Wx B TK PSr TR Wy SY LY TY RY. destruct (acc_ok KO KS CO1 CO PO TO KL CL COD POD CLD h x r y H0 HA Wx B PSr Wy SY LY) as (s & ES & (Ws & Ls & _) & Ss & Ds).
  unfold mix_ps_in_place. destruct (trunc_dec (s_tag r) (s_tag y)) as [EQ|NE].
  - rewrite (visit_same _ r y EQ), ES. cbn [bind]. left. eexists. split; [reflexivity|]. split; [split; [apply set_tag_wf; exact Ws|split; [exact Ls|right; exact Ss]]|]. split; [exact Ss|]. split; [cbn; congruence|]. intros us Q. rewrite nden_tag. apply Ds.
  - assert (TN : s_tag r = no_truncation /\ terms r = []) by (destruct TR as [TR|TR]; [congruence|exact TR]). destruct TN as [TN T0]. rewrite (visit_adopt _ r y TN) by congruence. rewrite ES. cbn [bind].
    pose proof (sum_terms COD CLD h x r s y H0 T0 Ws Ss Wy SY Ds) as ST.
    destruct (truncate_ok KO KS CO tD KL HT DI (s_tag x) (set_tag s (s_tag y)) (set_tag_wf KO KS CO s (s_tag y) Ws) TK ltac:(cbn; exact TY)) as [(r' & ER & WR & SR & TR' & LR & FT & _)|[ER (NT & k & c & J & N)]].
    + left. cbn [set_tag s_ss s_log2] in SR, LR. assert (FA : terms r' = terms s).
      { rewrite FT. change (terms (set_tag s (s_tag y))) with (terms s). apply filter_all. intros [k c] I. cbn [set_tag s_ss fst]. rewrite Ss. destruct (ST k c I) as (k' & c' & J & EQ). rewrite <- EQ. eapply RY; eauto. }
      exists r'. split; [exact ER|]. split; [split; [exact WR|split; [congruence|right; congruence]]|]. split; [congruence|]. split; [exact TR'|]. intros us Q. rewrite (nden_same us s r' Q FA SR). apply Ds.
    + right. split; [exact ER|]. destruct (ST k c J) as (k' & c' & J' & EQ). exists k', c'. split; [exact J'|]. split; [exact NT|]. rewrite EQ. cbn [set_tag s_ss] in N. rewrite Ss in N. exact N.
Qed.
Lemma ps_plus_ok (x : arg) k b (z : arg) (y : out) : WF1 x -> Z.of_nat (len (s_ss x) + len (s_ss x)) <= imax size_t -> WF1 z -> s_ss z = s_ss x -> s_tag z = s_tag x -> s_log2 z = O -> terms z = [] -> single KO KS CO x k b y ->
  exists s, o_plus PLO z y = Ok s /\ WF s /\ s_ss s = s_ss x /\ s_tag s = s_tag x /\ s_log2 s = O /\ forall us Q, nden KS CO us s Q = nden KS CO us y Q.
Proof.
  intros Wx B Wz SZ TZ LZ NZ SY. pose proof SY as (_ & _ & TY & _). destruct (plus_ok KO KS CO1 CO PO1 PO TO KL CL1 CL f EF x k b z y Wx B Wz SZ LZ NZ SY) as (s & ES & Ws & Ss & Ls & Ds).
  cbn [ps_loop_ops o_plus poly_loop_ops] in *. unfold mix_ps_addsub. rewrite (visit_same _ z y) by congruence. rewrite ES. cbn [bind]. eexists. split; [reflexivity|]. split; [apply set_tag_wf; exact Ws|]. split; [exact Ss|]. split; [exact TZ|]. split; [exact Ls|]. intros us Q. rewrite nden_tag. apply Ds.
Qed.

(** The terms of a series of value b * k'. *)
Lemma one_term (x : arg) k b (s : out) : WF s -> s_ss s = s_ss x -> (forall us Q, nden KS CO us s Q = if Q (spread (s_ss x) us (exps x k)) then b else c_zero CO) -> ks_valid KS (len (s_ss x)) k ->
  forall k0 c0, In (k0, c0) (terms s) -> exps x k0 = exps x k /\ b <> c_zero CO.
Proof.
  intros W S DE V k0 c0 I. pose proof (wf_ss _ _ _ _ W) as SX. rewrite S in SX. assert (CR : covers (s_ss x) s) by (split; [exact SX|rewrite S; apply incl_refl]).
  pose proof (coef_term KO KS CO KL CL (s_ss x) s k0 c0 W CR I) as CT. rewrite coef_nden, DE in CT. pose proof (wf_nonzero _ _ _ _ W k0 c0 I) as NZ.
  rewrite S in CT. rewrite !spread_self in CT; try (apply sorted_set_nodup; exact SX); [| |apply (kl_len _ _ KL); exact V].
  - unfold vec_eqb in CT. destruct (list_eq_dec _ _ _) as [E|E]; [|congruence]. split; [symmetry; exact E|congruence].
  - apply (kl_len _ _ KL). rewrite <- S. eapply wf_valid; eauto.
Qed.

Variable cz : Z -> C.
Hypothesis CZ : int_embedding CO cz.
Variable cmulz : C1 -> Z -> C.
Hypothesis CM : forall c n, cmulz c n = f c *c cz n.
Hypothesis F1 : f (c_one CO1) = c_one CO.
Hypothesis F0 : ks_fits KS [].
Notation dterm := (dterm CO cz).
Notation fvt := (fvt KS f).

Lemma ps_diff_convert_loop (x : arg) s : WF1 x -> Z.of_nat (len (s_ss x) + len (s_ss x)) <= imax size_t -> trunc_ok tD (s_tag x) -> respects KS x ->
  (exists r, ps_diff_convert KO CO1 CO PO1 PO tD f cmulz x s = Ok r /\ WF r /\ s_log2 r = O /\ s_ss r = (if terms x then [] else s_ss x) /\ s_tag r = (if terms x then no_truncation else s_tag x) /\
     forall us Q, covers us x -> nden KS CO us r Q = psum CO Q (map (dterm us s) (fvt x us (terms x)))) \/
  (ps_diff_convert KO CO1 CO PO1 PO tD f cmulz x s = Throw overflow_error /\
    (diff_unrep KS x s \/ exists k c, In (k, c) (terms x) /\ degree_fails KS (s_tag x) (s_ss x) (bump (s_ss x) s (-1) (exps x k)))).
Proof.
  intros W B TK RX. unfold ps_diff_convert, diff_convert. cbv zeta. destruct (zero_start KO KS CO PO TO KL CL F0) as (r0 & E0 & W0 & L0 & T0 & S0 & TG0). rewrite E0. cbn [bind].
  match goal with |- context [rfold ?f _ _] => set (step := f) end.
  set (Bad := fun q : res out => q = Throw overflow_error /\ (diff_unrep KS x s \/ exists k c, In (k, c) (terms x) /\ degree_fails KS (s_tag x) (s_ss x) (bump (s_ss x) s (-1) (exps x k)))).
  destruct (rfold_inv step (fun done r => partial_sum x r /\ s_ss r = (if done then [] else s_ss x) /\ s_tag r = (if done then no_truncation else s_tag x) /\ (done = [] -> terms r = []) /\
     forall us Q, covers us x -> nden KS CO us r Q = psum CO Q (map (dterm us s) (fvt x us done))) Bad) with (l := terms x) (pre := @nil (K * C1)) (b := r0) as [(r & E & (Wr & LR & _) & SR & TR & _ & DE)|HB].
  - intros b [X _]. discriminate.
  - split; [split; [exact W0|split; [exact L0|left; auto]]|]. split; [exact S0|]. split; [exact TG0|]. split; [intros _; exact T0|]. intros us Q _. unfold nden, vden. rewrite T0. reflexivity.
  - cbn [app]. intros p r [k c] q EQ (PSr & SR & TR & TE & DE). assert (I : In (k, c) (terms x)) by (rewrite EQ; apply in_or_app; right; left; reflexivity).
    pose proof (wf_valid _ _ _ _ W k c I) as V. unfold step. cbn [fst snd]. assert (LE : len (exps x k) = len (s_ss x)) by (apply (kl_len _ _ KL); exact V).
    assert (NE : forall {X} (a b : X), match p ++ [(k, c)] with [] => a | _ :: _ => b end = b) by (intros X a b; destruct p; reflexivity).
    assert (NN : p ++ [(k, c)] <> []) by (intros X; apply app_eq_nil in X as [_ X]; discriminate).
    assert (TG : s_tag r = s_tag x \/ (s_tag r = no_truncation /\ terms r = [])) by (destruct p; [right; split; [exact TR|apply TE; reflexivity]|left; exact TR]).
    destruct (monomial_poly_ok KO KS CO1 PO1 TO KL CL1 x k W V) as (t1 & ET & (Wt & St & Tt & _)). rewrite ET. cbn [bind]. destruct (zero_mul_ok KO KS CO1 KL CL1 x t1 Wt St Tt) as (Wz & Sz & Tz & Lz & Nz). set (z := series_scalar_mul KO CO1 t1 (c_zero CO1)) in *.
    destruct (in_dec string_dec s (s_ss x)) as [IS|IS].
    + destruct (index_some s (s_ss x) IS) as [_ LI]. assert (negb (Nat.eqb (ss_index (s_ss x) s) (len (s_ss x))) = true) as -> by (apply negb_true_iff, Nat.eqb_neq; lia).
      destruct (key_diff_ok KO KS CO1 KL x s k c W I IS) as [(k' & EK & V' & SP)|[EK H]]; rewrite EK; [|right; split; [reflexivity|left; exact H]]. cbn [bind].
      destruct (monomial_poly_ok KO KS CO1 PO1 TO KL CL1 x k' W V') as (t2 & ET2 & ST2). rewrite ET2. cbn [bind]. destruct (mix_scalar_mul_ok KO KS CO1 CO PO KL CL1 CL f EF x k' t2 (cmulz c (expo (s_ss x) (exps x k) s)) F1 ST2) as (y & EY & SY). rewrite EY. cbn [bind].
      destruct (ps_plus_ok x k' _ z y W B Wz Sz Tz Lz Nz SY) as (sm & ES & Wsm & Ssm & Tsm & Lsm & Dsm). rewrite ES. cbn [bind].
      assert (OT : forall k0 c0, In (k0, c0) (terms sm) -> exps x k0 = bump (s_ss x) s (-1) (exps x k)).
      { intros k0 c0 J. destruct (one_term x k' (cmulz c (expo (s_ss x) (exps x k) s)) sm Wsm Ssm) with (k0 := k0) (c0 := c0) as [EX NB]; auto.
        { intros us Q. rewrite Dsm. apply (single_nden KO KS CO). exact SY. }
        destruct SP as [Z0|SP]; [elim NB; rewrite CM, Z0, (ie_zero _ _ CZ); ring|]. rewrite EX. specialize (SP (s_ss x)). rewrite !spread_self in SP; auto; try (apply sorted_set_nodup, (wf_ss _ _ _ _ W)). apply (kl_len _ _ KL); exact V'. }
      destruct (ps_acc_ok CO PO CL (fun c => c) x r sm eq_refl (fun _ _ => eq_refl) W B TK PSr TG Wsm Ssm Lsm Tsm) as [(r' & ER & PS' & SR' & TR' & D')|[ER (k0 & c0 & J & DF)]].
      { intros k0 c0 J. rewrite (OT k0 c0 J). apply (within_bump (s_tag x) s); [apply bump_len; exact LE|]. rewrite bump_add by exact LE. change (-1 + 1) with 0. rewrite bump_0 by exact LE. eapply RX; eauto. }
      2: { right. cbn [ps_loop_ops o_acc]. split; [exact ER|]. right. exists k, c. split; [exact I|]. rewrite <- (OT k0 c0 J). exact DF. }
      left. exists r'. cbn [ps_loop_ops o_acc]. split; [exact ER|]. split; [exact PS'|]. split; [rewrite NE; exact SR'|]. split; [rewrite NE; exact TR'|]. split; [intros X; contradiction|].
      intros us Q CV. rewrite D', DE, Dsm by exact CV. unfold CalcProofs2.fvt. rewrite !map_app. rewrite (psum_app CO CL). f_equal. cbn [map fst snd]. rewrite (psum_cons CO CL), (psum_nil CO). cbn [DiffProofs.dterm fst snd].
      rewrite (single_nden KO KS CO x k' _ y us Q SY), CM, expo_spread' by (try apply CV; apply sorted_set_nodup, CV). destruct SP as [Z0|SP]; [rewrite Z0, (ie_zero _ _ CZ); destruct (Q (spread _ _ _)), (Q (bump _ _ _ _)); cbn [ifP]; ring|].
      rewrite SP. destruct (Q _); cbn [ifP]; ring.
    + rewrite (index_none s _ IS), Nat.eqb_refl. cbn [negb].
      destruct (ps_acc_ok CO1 PO1 CL1 f x r z (emb_zero _ _ _ EF) (emb_add _ _ _ EF) W B TK PSr TG Wz Sz Lz Tz) as [(r' & ER & PS' & SR' & TR' & D')|[ER (k0 & c0 & J & DF)]].
      { intros k0 c0 J. rewrite Nz in J. destruct J. }
      2: { rewrite Nz in J. destruct J. }
      left. exists r'. cbn [ps_loop_ops o_acc1]. split; [exact ER|]. split; [exact PS'|]. split; [rewrite NE; exact SR'|]. split; [rewrite NE; exact TR'|]. split; [intros X; contradiction|].
      intros us Q CV. rewrite D', DE by exact CV. unfold nden at 1, vden. rewrite Nz, (psum_nil CO1), (emb_zero _ _ _ EF). unfold CalcProofs2.fvt. rewrite !map_app. rewrite (psum_app CO CL). f_equal. cbn [map fst snd]. rewrite (psum_cons CO CL), (psum_nil CO). cbn [DiffProofs.dterm fst snd].
      rewrite expo_spread' by (try apply CV; apply sorted_set_nodup, CV). rewrite expo_notin by exact IS. rewrite (ie_zero _ _ CZ). destruct (Q _); cbn [ifP]; ring.
  - left. exists r. split; [exact E|]. split; [exact Wr|]. split; [exact LR|]. split; [exact SR|]. split; [exact TR|exact DE].
  - right. exact HB.
Qed.

(** ** Integration *)
Variable cdiv : C1 -> Z -> res C.
Hypothesis CD : forall c n, n <> 0 -> exists q, cdiv c n = Ok q.
Notation quot1 := (quot1 CO cdiv).
Notation iterm1 := (iterm1 CO cdiv).

Lemma ps_integrate_convert_loop (x : arg) s idx : WF1 x -> Z.of_nat (len (s_ss x) + len (s_ss x)) <= imax size_t -> nth_error (s_ss x) idx = Some s -> trunc_ok tD (s_tag x) ->
  (forall k c, In (k, c) (terms x) -> within (s_tag x) (s_ss x) (bump (s_ss x) s 1 (exps x k)) = true) ->
  (exists r, integrate_convert_at KO CO1 CO PO1 PO TO f PLO cdiv x idx = Ok r /\ WF r /\ s_log2 r = O /\ s_ss r = (if terms x then [] else s_ss x) /\ s_tag r = (if terms x then no_truncation else s_tag x) /\ ~ integ_domain KS x s /\ ~ integ_unrep KS (s_ss x) x s /\
     forall us Q, covers us x -> nden KS CO us r Q = psum CO Q (map (iterm1 us s) (vt KS us x))) \/
  (integrate_convert_at KO CO1 CO PO1 PO TO f PLO cdiv x idx = Throw domain_error /\ integ_domain KS x s) \/
  (integrate_convert_at KO CO1 CO PO1 PO TO f PLO cdiv x idx = Throw overflow_error /\
    (integ_unrep KS (s_ss x) x s \/ exists k c, In (k, c) (terms x) /\ degree_fails KS (s_tag x) (s_ss x) (bump (s_ss x) s 1 (exps x k)))).
Proof.
  intros W B EI TK RX. unfold integrate_convert_at. cbv zeta. destruct (zero_start KO KS CO PO TO KL CL F0) as (r0 & E0 & W0 & L0 & T0 & S0 & TG0). rewrite E0. cbn [bind].
  match goal with |- context [rfold ?f _ _] => set (step := f) end.
  set (Bad := fun q : res out => q = Throw domain_error /\ integ_domain KS x s \/ q = Throw overflow_error /\ (integ_unrep KS (s_ss x) x s \/ exists k c, In (k, c) (terms x) /\ degree_fails KS (s_tag x) (s_ss x) (bump (s_ss x) s 1 (exps x k)))).
  set (vts := fun us (l : list (K * C1)) => map (fun e : K * C1 => (spread (s_ss x) us (exps x (fst e)), snd e)) l).
  destruct (rfold_inv step (fun done r => partial_sum x r /\ s_ss r = (if done then [] else s_ss x) /\ s_tag r = (if done then no_truncation else s_tag x) /\ (done = [] -> terms r = []) /\
     (forall us Q, covers us x -> nden KS CO us r Q = psum CO Q (map (iterm1 us s) (vts us done))) /\
     forall k c, In (k, c) done -> expo (s_ss x) (exps x k) s <> -1 /\ ks_fits KS (bump (s_ss x) s 1 (exps x k))) Bad) with (l := terms x) (pre := @nil (K * C1)) (b := r0) as [(r & E & (Wr & LR & _) & SR & TR & _ & DE & HP)|HB].
  - intros b [[X _]|[X _]]; discriminate.
  - split; [split; [exact W0|split; [exact L0|left; auto]]|]. split; [exact S0|]. split; [exact TG0|]. split; [intros _; exact T0|]. split; [|intros ? ? []]. intros us Q _. unfold nden, vden. rewrite T0. reflexivity.
  - cbn [app]. intros p r [k c] q EQ (PSr & SR & TR & TE & DE & HP). assert (I : In (k, c) (terms x)) by (rewrite EQ; apply in_or_app; right; left; reflexivity). unfold step. cbn [fst snd].
    pose proof (wf_valid _ _ _ _ W k c I) as V. assert (LE : len (exps x k) = len (s_ss x)) by (apply (kl_len _ _ KL); exact V).
    assert (NE : forall {X} (a b : X), match p ++ [(k, c)] with [] => a | _ :: _ => b end = b) by (intros X a b; destruct p; reflexivity).
    assert (NN : p ++ [(k, c)] <> []) by (intros X; apply app_eq_nil in X as [_ X]; discriminate).
    assert (TG : s_tag r = s_tag x \/ (s_tag r = no_truncation /\ terms r = [])) by (destruct p; [right; split; [exact TR|apply TE; reflexivity]|left; exact TR]).
    destruct (key_integrate_ok KO KS CO1 KL x s idx k c W I EI) as [(k' & EK & V' & N1 & FT & SP)|[[EK H]|[EK H]]]; rewrite EK; [|right; left; split; [reflexivity|exact H]|right; right; split; [reflexivity|left; exact H]]. cbn [bind].
    destruct (monomial_poly_ok KO KS CO1 PO1 TO KL CL1 x k' W V') as (t2 & ET2 & ST2). rewrite ET2. cbn [bind]. rewrite (quot1_ok CO cdiv CD) by lia. cbn [bind].
    destruct (mix_scalar_mul_ok KO KS CO1 CO PO KL CL1 CL f EF x k' t2 (quot1 c (expo (s_ss x) (exps x k) s + 1)) F1 ST2) as (y & EY & SY). rewrite EY. cbn [bind]. pose proof SY as (Wy & Sy & Ty & Ly & _).
    assert (OT : forall k0 c0, In (k0, c0) (terms y) -> exps x k0 = bump (s_ss x) s 1 (exps x k)).
    { intros k0 c0 J. destruct (one_term x k' (quot1 c (expo (s_ss x) (exps x k) s + 1)) y Wy Sy) with (k0 := k0) (c0 := c0) as [EX NB]; auto.
      { intros us Q. apply (single_nden KO KS CO). exact SY. }
      rewrite EX. specialize (SP (s_ss x)). rewrite !spread_self in SP; auto; try (apply sorted_set_nodup, (wf_ss _ _ _ _ W)). apply (kl_len _ _ KL); exact V'. }
    destruct (ps_acc_ok CO PO CL (fun c => c) x r y eq_refl (fun _ _ => eq_refl) W B TK PSr TG Wy Sy Ly Ty) as [(r' & ER & PS' & SR' & TR' & D')|[ER (k0 & c0 & J & DF)]].
    { intros k0 c0 J. rewrite (OT k0 c0 J). eapply RX; eauto. }
    2: { right. right. cbn [ps_loop_ops o_acc]. split; [exact ER|]. right. exists k, c. split; [exact I|]. rewrite <- (OT k0 c0 J). exact DF. }
    left. exists r'. cbn [ps_loop_ops o_acc]. split; [exact ER|]. split; [exact PS'|]. split; [rewrite NE; exact SR'|]. split; [rewrite NE; exact TR'|]. split; [intros X; contradiction|]. split.
    + intros us Q CV. rewrite D', DE by exact CV. unfold vts. rewrite !map_app. rewrite (psum_app CO CL). f_equal. cbn [map fst snd]. rewrite (psum_cons CO CL), (psum_nil CO). unfold CalcProofs2.iterm1. cbn [fst snd].
      rewrite (single_nden KO KS CO x k' _ y us Q SY), expo_spread' by (try apply CV; apply sorted_set_nodup, CV). rewrite SP. destruct (Q _); cbn [ifP]; ring.
    + intros k0 c0 J. apply in_app_or in J as [J|[J|[]]]; [eauto|]. inversion J; subst. auto.
  - left. exists r. split; [exact E|]. split; [exact Wr|]. split; [exact LR|]. split; [exact SR|]. split; [exact TR|]. cbn [app] in HP. split; [intros (k & c & I & N); apply (HP k c I); exact N|]. split; [|exact DE].
    intros (k & c & I & N). apply N. rewrite spread_self; [apply (HP k c I)|apply sorted_set_nodup, (wf_ss _ _ _ _ W)|]. apply (kl_len _ _ KL), (wf_valid _ _ _ _ W k c I).
  - right. exact HB.
Qed.
End CP3.
