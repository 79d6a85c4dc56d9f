(** Property C89: derivatives and integrals whose result has another coefficient type.  Vocabulary: CalcSpec.v ([bump]), MixSpec.v ([cf_embedding]: an injective additive conversion), SeriesSpec.v. *)
From Coq Require Import ZArith List Bool String Arith Sorted Permutation Lia Ring Ring_theory QArith QArith.Qcanon.
From Verif Require Import Base IntModel SymModel SymSpec SymProofs P_Sym PMonSpec KeyOps KeyInst
  SeriesModel SeriesModel2 SeriesSpec SeriesProofs SeriesProofs2 SeriesProofs3 SeriesProofs4 SeriesProofs5 SeriesProofs6 Lin EvalSpec SeriesEval SeriesProofs7 CfInst P_Series P_Series2
  PolyModel PolyModel2 PolySpec PolyProofs7 PolyProofs8 PolyProofs9 P_Poly PowProofs2 CalcSpec DiffProofs IntegProofs P_Calc PSModel MixModel MixModel2 MixSpec MixProofs MixProofs2 P_Mix P_Mix2 SubsProofs CalcModel2 CalcProofs2.
Import ListNotations.
Open Scope Z_scope.
Open Scope res_scope.
Local Notation len := List.length.

Section PC2.
Context {K C1 C Tag : Type} (KO : key_ops K) (KS : key_sem K) (CO1 : cf_ops C1) (CO : cf_ops C) (PO1 : tbl_policy (K * C1)) (PO : tbl_policy (K * C)) (TO : tag_ops Tag).
Context (KL : key_laws KO KS) (CL1 : cf_laws CO1) (CL : cf_laws CO) (f : C1 -> C) (EF : cf_embedding CO1 CO f) (F1 : f (c_one CO1) = c_one CO) (F0 : ks_fits KS []).
Notation arg := (series K C1 Tag).
Notation out := (series K C Tag).
Notation WF1 := (wf KO KS CO1).
Notation WF := (wf KO KS CO).
Notation exps s k := (ks_exps KS (List.length (s_ss s)) k).
Notation coef1 := (coef KS CO1).
Notation coef := (coef KS CO).
Notation "0c" := (c_zero CO).
Infix "+c" := (c_add CO) (at level 50, left associativity).
Infix "*c" := (c_mul CO) (at level 40, left associativity).
Add Ring CringPC2 : (cl_ring _ CL).
Notation PLO := (poly_loop_ops KO CO1 CO PO1 PO TO f).
Context (cz : Z -> C) (CZ : int_embedding CO cz).

Lemma fvt_psum (x : arg) us Q : psum CO Q (fvt KS f x us (terms x)) = f (nden KS CO1 us x Q).
Proof.
  rewrite <- vt_psum. unfold fvt, vt. induction (terms x) as [|e l IH]; [unfold psum; cbn; symmetry; apply (emb_zero _ _ _ EF)|]. cbn [map]. rewrite (psum_cons CO CL), (psum_cons CO1 CL1), IH, (emb_add _ _ _ EF). f_equal. cbn [fst snd]. destruct (Q _); cbn [ifP]; [reflexivity|symmetry; apply (emb_zero _ _ _ EF)].
Qed.

(** C89. The derivative with another coefficient type: the coefficient of m is (e + 1) times the converted coefficient of m s in x, where e is the exponent of s in m; there are no terms if s is not a
    symbol of x; or an exponent of the derivative is not representable. *)
Theorem diff_convert_exact : forall (cmulz : C1 -> Z -> C), (forall c n, cmulz c n = f c *c cz n) ->
  forall (x : arg) s, WF1 x -> Z.of_nat (len (s_ss x) + len (s_ss x)) <= imax size_t ->
  (exists r, diff_convert KO CO1 CO PO1 PO TO f PLO cmulz x s = Ok r /\ WF r /\ s_ss r = (if terms x then [] else s_ss x) /\ (~ In s (s_ss x) -> terms r = []) /\
     forall us ws, covers us x -> In s us -> len ws = len us -> coef us r ws = cz (expo us ws s + 1) *c f (coef1 us x (bump us s 1 ws))) \/
  (diff_convert KO CO1 CO PO1 PO TO f PLO cmulz x s = Throw overflow_error /\ diff_unrep KS x s).
Proof.
  intros cmulz CM x s W B. destruct (diff_convert_loop KO KS CO1 CO PO1 PO TO KL CL1 CL f EF cz CZ cmulz CM F1 F0 x s W B) as [(r & E & Wr & _ & SR & D)|H]; [left|right; exact H].
  exists r. split; [exact E|]. split; [exact Wr|]. split; [exact SR|]. split.
  - intros NI. destruct (terms r) as [|[k c] l] eqn:T; [reflexivity|]. exfalso. assert (CV : covers (s_ss x) x) by (split; [apply (wf_ss _ _ _ _ W)|apply incl_refl]).
    assert (CR : covers (s_ss x) r) by (split; [apply (wf_ss _ _ _ _ W)|rewrite SR; destruct (terms x); [intros z []|apply incl_refl]]). assert (I : In (k, c) (terms r)) by (rewrite T; left; reflexivity).
    apply (wf_nonzero _ _ _ _ Wr k c I). rewrite <- (coef_term KO KS CO KL CL (s_ss x) r k c Wr CR I), coef_nden, D by exact CV. unfold fvt. rewrite map_map.
    assert (X : forall Q l, psum CO Q (map (fun e : K * C1 => dterm CO cz (s_ss x) s (spread (s_ss x) (s_ss x) (exps x (fst e)), f (snd e))) l) = 0c).
    { intros Q l0. induction l0 as [|e l0 IH]; [reflexivity|]. cbn [map]. rewrite (psum_cons CO CL), IH. cbn [DiffProofs.dterm fst snd]. rewrite expo_notin by exact NI. rewrite (ie_zero _ _ CZ). destruct (Q _); cbn [ifP]; ring. }
    apply X.
  - intros us ws CV IS L. rewrite coef_nden, D by exact CV. rewrite (dterm_coef CO CL cz) by (auto; unfold fvt; intros e I; apply in_map_iff in I as (e' & <- & _); cbn [fst]; apply spread_len). rewrite fvt_psum, <- coef_nden. reflexivity.
Qed.

(** C89. The integral with another coefficient type.  [cdiv] is total away from zero. *)
Context (cdiv : C1 -> Z -> res C) (CD : forall c n, n <> 0 -> exists q, cdiv c n = Ok q).
Notation quot1 := (quot1 CO cdiv).
Definition int_result (x : arg) s (r : out) (u : symbol_set) : Prop :=
  WF r /\ s_ss r = (if terms x then [] else u) /\ ~ integ_domain KS x s /\ ~ integ_unrep KS u x s /\
  forall us ws, sorted_set us -> incl u us -> len ws = len us ->
    (expo us ws s <> -1 -> coef us r (bump us s 1 ws) = if c_is_zero CO1 (coef1 us x ws) then 0c else quot1 (coef1 us x ws) (expo us ws s + 1)) /\
    (expo us ws s = 0 -> coef us r ws = 0c).

Lemma integ_convert_at (x : arg) s idx : WF1 x -> Z.of_nat (len (s_ss x) + len (s_ss x)) <= imax size_t -> nth_error (s_ss x) idx = Some s ->
  (exists r, integrate_convert_at KO CO1 CO PO1 PO TO f PLO cdiv x idx = Ok r /\ int_result x s r (s_ss x)) \/
  (integrate_convert_at KO CO1 CO PO1 PO TO f PLO cdiv x idx = Throw domain_error /\ integ_domain KS x s) \/
  (integrate_convert_at KO CO1 CO PO1 PO TO f PLO cdiv x idx = Throw overflow_error /\ integ_unrep KS (s_ss x) x s).
Proof.
  intros W B EI. destruct (integrate_convert_loop KO KS CO1 CO PO1 PO TO KL CL1 CL f EF F1 F0 cdiv CD x s idx W B EI) as [(r & E & Wr & _ & SR & ND & NU & D)|H]; [left|right; exact H].
  exists r. split; [exact E|]. split; [exact Wr|]. split; [exact SR|]. split; [exact ND|]. split; [exact NU|]. intros us ws SU IU LW. assert (CV : covers us x) by (split; auto). rewrite !coef_nden, !D, <- !vt_psum by exact CV. split; intros HE.
  - apply (iterm1_coef CO1 CO CL1 CL cdiv); auto; [intros e; apply vt_len|apply (vt_nodup KO KS CO1 KL); auto|]. intros v c J. unfold vt in J. apply in_map_iff in J as ([k c'] & EQ & J). apply (f_equal snd) in EQ. cbn [snd] in EQ. subst c'. exact (wf_nonzero _ _ _ _ W k c J).
  - apply (iterm1_zero CO CL cdiv); auto; [apply IU; eapply nth_error_In; eauto|]. intros e J. split; [eapply vt_len; eauto|]. unfold vt in J. apply in_map_iff in J as ([k c] & <- & J). cbn [fst]. rewrite expo_spread' by (auto; apply sorted_set_nodup; auto). intros X. apply ND. exists k, c. auto.
Qed.

Lemma integrate_convert_ok : forall (x : arg) s, WF1 x -> 2 * (Z.of_nat (len (s_ss x)) + 1) <= imax size_t ->
  exists u, with_symbol (s_ss x) s u /\
  ((exists r, integrate_convert KO CO1 CO PO1 PO TO f PLO cdiv x s = Ok r /\ WF r /\ s_ss r = (if terms x then [] else u) /\ ~ integ_domain KS x s /\ ~ integ_unrep KS u x s /\
      forall us ws, sorted_set us -> incl u us -> len ws = len us ->
        (expo us ws s <> -1 -> coef us r (bump us s 1 ws) = if c_is_zero CO1 (coef1 us x ws) then 0c else quot1 (coef1 us x ws) (expo us ws s + 1)) /\
        (expo us ws s = 0 -> coef us r ws = 0c)) \/
   (integrate_convert KO CO1 CO PO1 PO TO f PLO cdiv x s = Throw domain_error /\ integ_domain KS x s) \/
   (key_overflow (integrate_convert KO CO1 CO PO1 PO TO f PLO cdiv x s) /\ (unrep KS u x \/ integ_unrep KS u x s \/ full (s_log2 x) (len (terms x))))).
Proof.
  intros x s W BB. unfold integrate_convert. cbv zeta. destruct (lower_bound (s_ss x) s) as [idx rest] eqn:EL. destruct (lower_bound_spec _ _ _ _ EL) as (A & B & L & D & F). pose proof (wf_ss _ _ _ _ W) as SS.
  destruct (in_dec string_dec s (s_ss x)) as [IS|IS].
  - exists (s_ss x). split; [split; [exact SS|]; intros z; split; [auto|intros [H| ->]; auto]|].
    assert (ER : exists q, rest = s :: q).
    { destruct rest as [|y q]; [rewrite A in IS; rewrite app_nil_r in IS; apply D in IS; elim (slt_irrefl _ IS)|]. exists q. f_equal. rewrite A in IS. apply in_app_or in IS as [IS|[IS|IS]]; [apply D in IS; elim (slt_irrefl _ IS)|exact IS|].
      assert (X : sorted_set (y :: q)). { rewrite B. clear -SS. revert SS. generalize (s_ss x). induction idx as [|n IH]; intros l S; [exact S|]. destruct l; [constructor|]. inversion_clear S. cbn [skipn]. apply IH. auto. }
      inversion_clear X as [|? ? _ FF]. rewrite Forall_forall in FF. elim F. apply FF. exact IS. }
    destruct ER as [q ->]. rewrite String.eqb_refl. cbn [negb]. assert (EI : nth_error (s_ss x) idx = Some s). { rewrite A. rewrite nth_error_app2; rewrite firstn_length; [|lia]. rewrite Nat.min_l by lia. rewrite Nat.sub_diag. reflexivity. }
    destruct (integ_convert_at x s idx W ltac:(lia) EI) as [H|[H|[H1 H2]]]; [left; exact H|right; left; exact H|right; right]. split; [left; exact H1|]. tauto.
  - assert (NR : match rest with y :: _ => y <> s | [] => True end). { destruct rest as [|y q]; [exact I|]. intros ->. apply IS. rewrite A. apply in_or_app. right. left. reflexivity. }
    set (u := firstn idx (s_ss x) ++ s :: rest). assert (SU : sorted_set u) by (eapply sorted_insert; eauto). exists u.
    assert (IU : with_symbol (s_ss x) s u). { split; [exact SU|]. intros z. unfold u. rewrite A at 2. rewrite !in_app_iff. cbn [In]. split; intros H; [destruct H as [H|[H|H]]; auto|destruct H as [[H|H]|H]; auto]. }
    split; [exact IU|]. assert (MS : match rest with y :: _ => negb (String.eqb y s) | [] => true end = true) by (destruct rest as [|y q]; [reflexivity|]; destruct (String.eqb_spec y s); [contradiction|reflexivity]).
    rewrite MS. fold u. clear MS.
    assert (LU : len u = S (len (s_ss x))). { unfold u. rewrite A at 2. rewrite !app_length. cbn [List.length]. lia. }
    assert (EU : insert_all (ins_at [(idx, [s])]) 0 (s_ss x) = u) by (unfold u; rewrite B; apply (insert_one s (s_ss x) idx 0 L)).
    assert (IM : ins_map_ok (len (s_ss x)) [(idx, [s])]) by (split; repeat constructor; cbn; [exact L|discriminate]).
    assert (INC : incl (s_ss x) u) by (intros z J; apply IU; auto).
    destruct (extend_ok KO KS CO1 CO1 PO1 TO KL CL1 (fun c => c) eq_refl (fun _ _ => eq_refl) (s_tag x) true x [(idx, [s])] u W IM EU SU (or_introl eq_refl)) as [(a & EA & Wa & SA & TA & LA & DA & NA)|(KV & H)].
    + rewrite EA. cbn [bind]. assert (OV : over_u KO KS CO1 u x a). { split; [exact Wa|]. split; [exact SA|]. split; [exact NA|]. intros ws. rewrite !coef_nden. unfold nden at 1. rewrite DA, SA. apply (vden_spread KS CO1 u u x (fun v => vec_eqb v ws) INC). }
      assert (EI : nth_error (s_ss a) idx = Some s). { rewrite SA. unfold u. rewrite nth_error_app2; rewrite firstn_length; [|lia]. rewrite Nat.min_l by lia. rewrite Nat.sub_diag. reflexivity. }
      assert (VS : forall us, sorted_set us -> incl u us -> same CO1 (vt KS us a) (vt KS us x)). { intros us SUS IUS. apply (same_eqb CO1 CL1). intros v. eapply vt_same; eauto. }
      assert (TD : forall k c, In (k, c) (terms a) -> exists k' c', In (k', c') (terms x) /\ exps a k = spread (s_ss x) u (exps x k')).
      { intros k c J. destruct (over_term KO KS CO1 KL CL1 u x a k c W SU INC OV J) as (k' & c' & J' & EK). exists k', c'. rewrite SA in *. auto. }
      assert (TU : forall k c, In (k, c) (terms x) -> exists k' c', In (k', c') (terms a) /\ exps a k' = spread (s_ss x) u (exps x k)).
      { intros k c J. destruct (over_term' KO KS CO1 KL CL1 u x a k c W SU INC OV J) as (k' & c' & J' & EK). exists k', c'. rewrite SA in *. auto. }
      assert (TE : forall {X} (p q : X), (if terms a then p else q) = (if terms x then p else q)).
      { intros X p q. destruct (terms a) as [|[k c] la], (terms x) as [|[k2 c2] lx]; try reflexivity; [destruct (TU k2 c2 (or_introl eq_refl)) as (? & ? & [] & _)|destruct (TD k c (or_introl eq_refl)) as (? & ? & [] & _)]. }
      assert (LX : forall k c, In (k, c) (terms x) -> expo u (spread (s_ss x) u (exps x k)) s = 0) by (intros k c J; rewrite expo_spread' by (auto; apply sorted_set_nodup; exact SU); apply expo_notin; exact IS).
      destruct (integ_convert_at a s idx Wa ltac:(rewrite SA, LU; lia) EI) as [(r & ER & (Wr & R1 & R4 & R5 & R6))|[[H1 H2]|[H1 H2]]].
      * left. exists r. split; [exact ER|]. split; [exact Wr|]. split; [rewrite R1, TE, SA; reflexivity|]. split.
        { intros (k & c & J & N). rewrite expo_notin in N by exact IS. discriminate. }
        split. { intros (k & c & J & N). destruct (TU k c J) as (k' & c' & J' & EK). apply R5. exists k', c'. split; [exact J'|]. rewrite SA, <- SA at 1. rewrite spread_self; [rewrite EK, SA; exact N|apply sorted_set_nodup, (wf_ss _ _ _ _ Wa)|eapply exps_len; eauto]. }
        intros us ws SUS IUS LW. destruct (R6 us ws SUS ltac:(rewrite SA; exact IUS) LW) as [R7 R8]. split; [|exact R8]. intros N. rewrite (R7 N). assert (CE : coef1 us a ws = coef1 us x ws) by (rewrite !coef_nden, <- !vt_psum; apply VS; auto). rewrite CE. reflexivity.
      * exfalso. destruct H2 as (k & c & J & N). destruct (TD k c J) as (k' & c' & J' & EK). rewrite EK, SA, (LX k' c' J') in N. discriminate.
      * right. right. split; [left; exact H1|]. right. left. destruct H2 as (k & c & J & N).
        destruct (TD k c J) as (k' & c' & J' & EK). exists k', c'. split; [exact J'|]. rewrite EK, SA in N. rewrite spread_self in N; auto; [apply sorted_set_nodup; exact SU|]. apply spread_len.
    + right. right. assert (KV' : key_overflow (extend_to KO CO1 PO1 TO (s_tag x) true (fun c => c) u x [(idx, [s])])) by exact KV. split; [destruct KV as [-> | ->]; [left|right]; reflexivity|]. destruct H as [H|H]; [left; exact H|right; right; exact H].
Qed.

(** C89. The integral: the coefficient of m s is the quotient of the coefficient of m in x and e + 1, where e is the exponent of s in m; no term has exponent 0 in s. *)
Theorem integrate_convert_exact : forall (x : arg) s, WF1 x -> 2 * (Z.of_nat (len (s_ss x)) + 1) <= imax size_t ->
  exists u, with_symbol (s_ss x) s u /\
  ((exists r, integrate_convert KO CO1 CO PO1 PO TO f PLO cdiv x s = Ok r /\ WF r /\ s_ss r = (if terms x then [] else u) /\ ~ integ_domain KS x s /\ ~ integ_unrep KS u x s /\
      forall us ws, sorted_set us -> incl u us -> len ws = len us ->
        (expo us ws s <> -1 -> coef1 us x ws <> c_zero CO1 -> cdiv (coef1 us x ws) (expo us ws s + 1) = Ok (coef us r (bump us s 1 ws))) /\
        (expo us ws s <> -1 -> coef1 us x ws = c_zero CO1 -> coef us r (bump us s 1 ws) = 0c) /\
        (expo us ws s = 0 -> coef us r ws = 0c)) \/
   (integrate_convert KO CO1 CO PO1 PO TO f PLO cdiv x s = Throw domain_error /\ integ_domain KS x s) \/
   (key_overflow (integrate_convert KO CO1 CO PO1 PO TO f PLO cdiv x s) /\ (unrep KS u x \/ integ_unrep KS u x s \/ full (s_log2 x) (len (terms x))))).
Proof.
  intros x s W B. destruct (integrate_convert_ok x s W B) as (u & WS & H). exists u. split; [exact WS|]. destruct H as [(r & E & Wr & H1 & H2 & H3 & H4)|H]; [left|right; exact H].
  exists r. split; [exact E|]. split; [exact Wr|]. split; [exact H1|]. split; [exact H2|]. split; [exact H3|]. intros us ws SU IU L. destruct (H4 us ws SU IU L) as [H5 H6]. split; [|split; [|exact H6]].
  - intros N NZ. rewrite (H5 N). destruct (c_is_zero CO1 (coef1 us x ws)) eqn:EZ; [apply (cl_zero _ CL1) in EZ; contradiction|]. apply (quot1_ok CO cdiv CD). lia.
  - intros N EZ. rewrite (H5 N). apply (cl_zero _ CL1) in EZ. rewrite EZ. reflexivity.
Qed.

(** C89. If the quotients are exact, the derivative of the integral is x with its coefficients converted. *)
Theorem diff_integrate_convert : (forall c n q, n <> 0 -> cdiv c n = Ok q -> q *c cz n = f c) ->
  forall (x : arg) (r d : out) s, WF1 x -> 2 * (Z.of_nat (len (s_ss x)) + 1) <= imax size_t ->
  integrate_convert KO CO1 CO PO1 PO TO f PLO cdiv x s = Ok r -> poly_diff KO CO PO TO cz r s = Ok d ->
  forall us ws, sorted_set us -> incl (s_ss x) us -> In s us -> len ws = len us -> coef us d ws = f (coef1 us x ws).
Proof.
  intros EX x r d s W B EI ED us ws SU IX IS L. destruct (integrate_convert_exact x s W B) as (u & WS & [(r' & E' & Wr & SR & ND & _ & H)|[[? _]|[[?|?] _]]]); try congruence. assert (r' = r) by congruence. subst r'.
  assert (IU : incl u us) by (intros z J; apply WS in J as [J| ->]; [apply IX; exact J|exact IS]).
  destruct (diff_exact KO KS CO PO TO KL CL cz CZ r s Wr) as [(d' & E2 & Wd & _ & _ & _ & HD)|[? _]]; [|congruence]. assert (d' = d) by congruence. subst d'.
  assert (CR : covers us r) by (split; [exact SU|]; rewrite SR; destruct (terms x); [intros z []|exact IU]).
  rewrite (HD us ws CR IS L). destruct (H us ws SU IU L) as (H1 & H2 & _). destruct (Z.eq_dec (expo us ws s) (-1)) as [M|M].
  - rewrite M. change (-1 + 1) with 0. rewrite (ie_zero _ _ CZ). transitivity 0c; [ring|]. rewrite <- (emb_zero _ _ _ EF). f_equal. symmetry. apply (coef_zero KS CO1 CL1). intros k c I EQ. apply ND. exists k, c. split; [exact I|]. rewrite <- M, <- EQ. symmetry. apply expo_spread'; [exact IX|apply sorted_set_nodup; exact SU].
  - destruct (c_is_zero CO1 (coef1 us x ws)) eqn:EZ.
    + apply (cl_zero _ CL1) in EZ. rewrite (H2 M EZ), EZ, (emb_zero _ _ _ EF). ring.
    + assert (NZ : coef1 us x ws <> c_zero CO1) by (intros X; apply (cl_zero _ CL1) in X; congruence). assert (N1 : expo us ws s + 1 <> 0) by lia. rewrite <- (EX _ _ _ N1 (H1 M NZ)). ring.
Qed.
End PC2.
Print Assumptions diff_convert_exact.
Print Assumptions integrate_convert_exact.
Print Assumptions diff_integrate_convert.

(** * Non-vacuity: from integer to rational coefficients. *)
Definition qdiv (c n : Z) : res Qc := Qc_div (Qz c) n.
Lemma qdiv_total : forall c n, n <> 0 -> exists q, qdiv c n = Ok q.
Proof. intros c n N. destruct (Qc_division (Qz c) n N) as (q & E & _). exists q. exact E. Qed.
Lemma qdiv_exact : forall c n q, n <> 0 -> qdiv c n = Ok q -> c_mul Qc_cf q (Qz n) = Qz c.
Proof. intros c n q N E. destruct (Qc_division (Qz c) n N) as (q' & E' & H). unfold qdiv in E. assert (q' = q) by congruence. subst. exact H. Qed.
Notation QL := (poly_loop_ops exK Z_cf Qc_cf exP (po_front _) Z_tag Qz).
Definition ex_cd := diff_convert exK Z_cf Qc_cf exP (po_front _) Z_tag Qz QL (fun c n => c_mul Qc_cf (Qz c) (Qz n)) ex_x "b".
Definition ex_ci := integrate_convert exK Z_cf Qc_cf exP (po_front _) Z_tag Qz QL qdiv ex_x "b".
Definition ex_cj := integrate_convert exK Z_cf Qc_cf exP (po_front _) Z_tag Qz QL qdiv ex_x "ab".
Example ex_convert : is_ok ex_cd = true /\ is_ok ex_ci = true /\ is_ok ex_cj = true /\ s_ss (get (series_default Z_tag) ex_cj) = ["a"; "ab"; "b"]%string /\
  coef exS Qc_cf ["a"; "b"]%string (get (series_default Z_tag) ex_cd) [1; 1] = qf 6 1 /\ coef exS Qc_cf ["a"; "b"]%string (get (series_default Z_tag) ex_ci) [0; 2] = qf 7 2 /\
  coef exS Qc_cf ["a"; "ab"; "b"]%string (get (series_default Z_tag) ex_cj) [1; 1; 0] = qf (-2) 1.
Proof. do 4 (split; [vm_compute; reflexivity|]). split; [apply (cl_eqb _ Qc_cf_laws); vm_compute; reflexivity|]. split; apply (cl_eqb _ Qc_cf_laws); vm_compute; reflexivity. Qed.
Example ex_convert_hyps : wf exK exS Z_cf ex_x /\ cf_embedding Z_cf Qc_cf Qz /\ Qz (c_one Z_cf) = c_one Qc_cf /\ int_embedding Qc_cf Qz /\ 2 * (Z.of_nat (len (s_ss ex_x)) + 1) <= imax size_t.
Proof. split; [apply ex_x_wf|]. split; [exact P_Mix.Qz_embedding|]. split; [apply (cl_eqb _ Qc_cf_laws); vm_compute; reflexivity|]. split; [exact Qc_embedding|]. vm_compute. discriminate. Qed.
