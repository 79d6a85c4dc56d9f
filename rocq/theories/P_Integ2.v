(** Property C83: integration when the division of coefficients truncates (integer coefficients).  Vocabulary: CalcSpec.v, SeriesSpec.v. *)
From Coq Require Import ZArith List Bool String Arith Sorted Permutation Lia Ring Ring_theory.
From Verif Require Import Base KpackModel IntModel SymModel SymSpec SymProofs P_Sym PMonSpec KeyOps KeyInst
  SeriesModel SeriesModel2 SeriesSpec SeriesProofs SeriesProofs2 SeriesProofs3 SeriesProofs4 SeriesProofs5 SeriesProofs6 EvalSpec SeriesEval SeriesProofs7 CfInst P_Series P_Series2
  PolyModel PolyModel2 PolySpec P_Poly P_Poly2 PowProofs2 CalcSpec DiffProofs IntegProofs P_Calc.
Import ListNotations.
Open Scope Z_scope.
Open Scope res_scope.
Local Notation len := List.length.

(** polynomial.hpp:2815 with integer coefficients: [c / key_int.first] of mppp::integer: the quotient is rounded towards zero, a zero divisor throws. Its type is the type of
    the coefficient, so algorithm 2 of polynomial.hpp:2688-2696 is the one chosen. *)
Definition int_div (c n : Z) : res Z := if n =? 0 then Throw zero_division_error else Ok (Z.quot c n).

Section PI.
Context {K Tag : Type} (KO : key_ops K) (KS : key_sem K) (PO : tbl_policy (K * Z)) (TO : tag_ops Tag) (KL : key_laws KO KS).
Notation series := (series K Z Tag).
Notation WF := (wf KO KS Z_cf).
Notation coef := (coef KS Z_cf).
Notation exps s k := (ks_exps KS (List.length (s_ss s)) k).
Notation integrate := (poly_integrate KO Z_cf PO TO int_div).
Notation diff := (poly_diff KO Z_cf PO TO (fun z => z)).

Lemma int_div_total : total_division int_div.
Proof. intros c n N. unfold int_div. destruct (Z.eqb_spec n 0); [contradiction|]. eexists. reflexivity. Qed.

(** C83. With integer coefficients the coefficient of the integral at m s is that of x at m divided by e + 1 (e the exponent of s in m) and rounded towards zero; the
    monomials without s have coefficient zero; the symbols, the tag and the exceptions are those of the exact case. *)
Theorem int_integrate_exact : forall (x : series) s, WF x ->
  exists u, with_symbol (s_ss x) s u /\
  ((exists r, integrate x s = Ok r /\ WF r /\ s_ss r = u /\ s_tag r = s_tag x /\ ~ integ_domain KS x s /\ ~ integ_unrep KS u x s /\
      forall us ws, sorted_set us -> incl u us -> len ws = len us ->
        (expo us ws s <> -1 -> coef us r (bump us s 1 ws) = Z.quot (coef us x ws) (expo us ws s + 1)) /\
        (expo us ws s = 0 -> coef us r ws = 0)) \/
   (integrate x s = Throw domain_error /\ integ_domain KS x s) \/
   (key_overflow (integrate x s) /\ (unrep KS u x \/ integ_unrep KS u x s \/ full (s_log2 x) (len (terms x))))).
Proof.
  intros x s W. destruct (integ_ok KO KS Z_cf PO TO KL Z_cf_laws int_div int_div_total x s W) as (u & WS & H). exists u. split; [exact WS|]. destruct H as [(r & E & Wr & H1 & H2 & H3 & H4 & H5 & H6)|H]; [left|right; exact H].
  exists r. split; [exact E|]. split; [exact Wr|]. split; [exact H1|]. split; [exact H2|]. split; [exact H4|]. split; [exact H5|]. intros us ws SU IU L. destruct (H6 us ws SU IU L) as [H7 H8]. split; [|exact H8].
  intros N. rewrite (H7 N). destruct (c_is_zero Z_cf (coef us x ws)) eqn:EZ; [apply (cl_zero _ Z_cf_laws) in EZ; rewrite EZ; symmetry; apply Z.quot_0_l; lia|].
  unfold quot, int_div. destruct (Z.eqb_spec (expo us ws s + 1) 0); [lia|reflexivity].
Qed.

(** C83. The derivative of the integral is x less the remainders of its coefficients. *)
Theorem int_diff_integrate : forall (x r d : series) s, WF x -> integrate x s = Ok r -> diff r s = Ok d ->
  forall us ws, covers us r -> len ws = len us -> coef us d ws = coef us x ws - Z.rem (coef us x ws) (expo us ws s + 1).
Proof.
  intros x r d s W EI ED us ws [SU IU] L. destruct (int_integrate_exact x s W) as (u & WS & [(r' & E' & Wr & SR & _ & ND & _ & H)|[[? _]|[[?|?] _]]]); try congruence. assert (r' = r) by congruence. subst r'.
  assert (IS : In s us) by (apply IU; rewrite SR; apply WS; auto). destruct (diff_exact KO KS Z_cf PO TO KL Z_cf_laws (fun z => z) Z_embedding r s Wr) as [(d' & E2 & Wd & _ & _ & _ & HD)|[? _]]; [|congruence]. assert (d' = d) by congruence. subst d'.
  rewrite (HD us ws (conj SU IU) IS L). rewrite SR in IU. destruct (H us ws SU IU L) as [H1 _]. change (c_mul Z_cf) with Z.mul. destruct (Z.eq_dec (expo us ws s) (-1)) as [M|M].
  - assert (CX : coef us x ws = 0).
    { apply (coef_zero KS Z_cf Z_cf_laws). intros k c I EQ. apply ND. exists k, c. split; [exact I|]. rewrite <- M, <- EQ. symmetry. apply expo_spread'; [|apply sorted_set_nodup; exact SU]. intros z J. apply IU, WS. auto. }
    rewrite M, CX. reflexivity.
  - rewrite (H1 M). pose proof (Z.quot_rem (coef us x ws) (expo us ws s + 1) ltac:(lia)). lia.
Qed.

(** C83. It is an antiderivative exactly if every coefficient is divisible by the exponent of s plus one. *)
Theorem int_antiderivative_partial : forall (x r d : series) s, WF x -> integrate x s = Ok r -> diff r s = Ok d ->
  ((forall us ws, covers us r -> len ws = len us -> coef us d ws = coef us x ws) <->
   (forall k c, In (k, c) (terms x) -> (expo (s_ss x) (exps x k) s + 1 | c))).
Proof.
  intros x r d s W EI ED. pose proof (int_diff_integrate x r d s W EI ED) as H.
  destruct (int_integrate_exact x s W) as (u & WS & [(r' & E' & Wr & SR & _ & ND & _ & _)|[[? _]|[[?|?] _]]]); try congruence. assert (r' = r) by congruence. subst r'.
  assert (IX : incl (s_ss x) u) by (intros z I; apply WS; auto). destruct WS as [SU _]. split.
  - intros A k c I. assert (CV : covers u x) by (split; auto). assert (CR : covers u r) by (split; [exact SU|rewrite SR; apply incl_refl]).
    pose proof (coef_term KO KS Z_cf KL Z_cf_laws u x k c W CV I) as CT. set (ws := spread (s_ss x) u (exps x k)) in *. assert (L : len ws = len u) by apply spread_len.
    pose proof (H u ws CR L) as H1. rewrite (A u ws CR L), CT in H1. unfold ws in H1. rewrite expo_spread' in H1 by (auto; apply sorted_set_nodup; exact SU).
    assert (N : expo (s_ss x) (exps x k) s + 1 <> 0) by (intros N; apply ND; exists k, c; split; [exact I|lia]). apply Z.rem_divide; [exact N|lia].
  - intros A us ws CV L. rewrite (H us ws CV L). destruct (Z.eq_dec (coef us x ws) 0) as [Z0|NZ]; [rewrite Z0; destruct (Z.eq_dec (expo us ws s + 1) 0) as [->|N]; [reflexivity|rewrite Z.rem_0_l by exact N; reflexivity]|].
    assert (CX : covers us x) by (destruct CV as [S1 I1]; split; [exact S1|]; intros z I; apply I1; rewrite SR; apply IX; exact I).
    apply (coef_nonzero KO KS Z_cf KL Z_cf_laws us x ws W CX) in NZ as (k & c & I & <-). rewrite (coef_term KO KS Z_cf KL Z_cf_laws us x k c W CX I). rewrite expo_spread' by (try apply CX; apply sorted_set_nodup; apply CX).
    assert (N : expo (s_ss x) (exps x k) s + 1 <> 0) by (intros N; apply ND; exists k, c; split; [exact I|lia]). pose proof (proj2 (Z.rem_divide c (expo (s_ss x) (exps x k) s + 1) N) (A k c I)). lia.
Qed.
End PI.
Print Assumptions int_integrate_exact.
Print Assumptions int_diff_integrate.
Print Assumptions int_antiderivative_partial.

(** * Non-vacuity *)
(** x = 3 a b^2 - 2 a + 7 b, integrated in b: a b^3 - 2 a b + 3 b^2; the derivative of that is 3 a b^2 - 2 a + 6 b. *)
Definition ix_b := poly_integrate exK Z_cf exP Z_tag int_div ex_x "b".
Definition ix_d := poly_diff exK Z_cf exP Z_tag (fun z => z) (get d0 ix_b) "b".
Example int_integrate_ex : wf exK exS Z_cf ex_x /\ ix_b = Ok (get d0 ix_b) /\ ix_d = Ok (get d0 ix_d) /\
  coef exS Z_cf ["a"; "b"]%string (get d0 ix_b) [1; 3] = 1 /\ coef exS Z_cf ["a"; "b"]%string (get d0 ix_b) [1; 1] = -2 /\ coef exS Z_cf ["a"; "b"]%string (get d0 ix_b) [0; 2] = 3 /\
  coef exS Z_cf ["a"; "b"]%string (get d0 ix_d) [0; 1] = 6 /\ coef exS Z_cf ["a"; "b"]%string ex_x [0; 1] = 7.
Proof. split; [apply ex_x_wf|]. do 6 (split; [vm_compute; reflexivity|]). vm_compute; reflexivity. Qed.

(** C83, the full statement, which the code does not meet: the integral is an antiderivative for every coefficient type with a division. The integral of a with integer
    coefficients is zero. *)
Definition ix_a : series Z Z Z := get d0 (exs 0 ["a"]%string 0 [([1], 1)]).
Lemma ix_a_wf : wf exK exS Z_cf ix_a /\ s_ss ix_a = ["a"]%string /\ s_log2 ix_a = 0%nat /\ s_tag ix_a = 0.
Proof. apply (exs_wf 0 ["a"]%string 0 [([1], 1)]); [repeat constructor|lia|vm_compute; reflexivity|vm_compute; reflexivity]. Qed.
Theorem int_antiderivative_refuted :
  ~ (forall (x r d : series Z Z Z) s, wf exK exS Z_cf x -> poly_integrate exK Z_cf exP Z_tag int_div x s = Ok r -> poly_diff exK Z_cf exP Z_tag (fun z => z) r s = Ok d ->
       forall us ws, covers us r -> len ws = len us -> coef exS Z_cf us d ws = coef exS Z_cf us x ws).
Proof.
  intros H. specialize (H ix_a (get d0 (poly_integrate exK Z_cf exP Z_tag int_div ix_a "a")) (get d0 (poly_diff exK Z_cf exP Z_tag (fun z => z) (get d0 (poly_integrate exK Z_cf exP Z_tag int_div ix_a "a")) "a")) "a"%string (proj1 ix_a_wf)
    ltac:(vm_compute; reflexivity) ltac:(vm_compute; reflexivity) ["a"]%string [1]).
  assert (CV : covers ["a"]%string (get d0 (poly_integrate exK Z_cf exP Z_tag int_div ix_a "a"))) by (split; [repeat constructor|vm_compute; auto]).
  specialize (H CV eq_refl). vm_compute in H. discriminate H.
Qed.
Print Assumptions int_antiderivative_refuted.
