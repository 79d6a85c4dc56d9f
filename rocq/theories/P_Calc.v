(** Properties C44, C45: differentiation and integration.  Vocabulary: CalcSpec.v ([bump]: add to the exponent of a symbol), SeriesSpec.v. *)
From Coq Require Import ZArith List Bool String Arith Sorted Permutation Lia Ring Ring_theory QArith QArith.Qcanon.
From Verif Require Import Base KpackModel KpackSpec KpackProofs P_Kpack IntModel IntSpec IntProofs SymModel SymSpec SymProofs P_Sym PMonModel PMonSpec PMonProofs PMonProofs2 P_PMon
  DPMModel DPMSpec DPMProofs DPMProofs2 DPMProofs3 P_DPM KeyOps KeyInst
  SeriesModel SeriesModel2 SeriesSpec SeriesProofs SeriesProofs2 SeriesProofs3 SeriesProofs4 SeriesProofs5 SeriesProofs6 Lin EvalSpec SeriesEval SeriesProofs7 CfInst P_Series P_Series2
  PolyModel PolyModel2 PolySpec PolyProofs7 PolyProofs8 PolyProofs9 P_Poly P_Poly2 PowProofs2 CalcSpec DiffProofs IntegProofs.
Import ListNotations.
Open Scope Z_scope.
Open Scope res_scope.
Local Notation len := List.length.

Section PC.
Context {K C Tag : Type} (KO : key_ops K) (KS : key_sem K) (CO : cf_ops C) (PO : tbl_policy (K * C)) (TO : tag_ops Tag).
Context (KL : key_laws KO KS) (CL : cf_laws CO).
Notation series := (series K C Tag).
Notation WF := (wf KO KS CO).
Notation coef := (coef KS CO).
Notation exps s k := (ks_exps KS (List.length (s_ss s)) k).
Infix "+c" := (c_add CO) (at level 50, left associativity).
Infix "*c" := (c_mul CO) (at level 40, left associativity).
Notation "0c" := (c_zero CO).
Add Ring CringPC : (cl_ring _ CL).
Notation vterm := (list Z * C)%type.
Context (cz : Z -> C) (CZ : int_embedding CO cz).
Notation diff := (poly_diff KO CO PO TO cz).
Notation dterm := (dterm CO cz).

Lemma dterm_coef us s (l : list vterm) ws : In s us -> len ws = len us -> (forall e, In e l -> len (fst e) = len us) ->
  psum CO (fun v => vec_eqb v ws) (map (dterm us s) l) = cz (expo us ws s + 1) *c psum CO (fun v => vec_eqb v (bump us s 1 ws)) l.
Proof.
  intros IS L H. induction l as [|[v c] l IH]; [cbn; unfold psum; cbn; ring|]. cbn [map]. rewrite !(psum_cons CO CL), IH by (intros; apply H; right; auto). cbn [DiffProofs.dterm fst snd].
  assert (LV : len v = len us) by (apply (H (v, c)); left; reflexivity). rewrite vec_eqb_bump by auto. replace (- (-1)) with 1 by lia.
  unfold vec_eqb at 1 3. destruct (list_eq_dec Z.eq_dec v (bump us s 1 ws)) as [->|NE]; cbn [ifP]; [|ring]. rewrite expo_bump by exact L. rewrite String.eqb_refl. destruct (in_dec string_dec s us); [ring|contradiction].
Qed.

(** C44. The derivative: the coefficient of m is (e + 1) times that of m s, where e is the exponent of s in m; it is zero if s is not a symbol of x; or the derivative is not
    representable (or a table is full) and overflow_error is thrown. *)
Theorem diff_exact : forall (x : series) s, WF x ->
  (exists r, diff x s = Ok r /\ WF r /\ s_ss r = s_ss x /\ s_tag r = s_tag x /\ (~ In s (s_ss x) -> terms r = []) /\
     forall us ws, covers us x -> In s us -> len ws = len us -> coef us r ws = cz (expo us ws s + 1) *c coef us x (bump us s 1 ws)) \/
  (diff x s = Throw overflow_error /\ (diff_unrep KS x s \/ full (s_log2 x) (2 * len (terms x)))).
Proof.
  intros x s W. destruct (diff_loop KO KS CO PO TO KL CL cz CZ x s W) as [(r & ER & Wr & (M1 & M2 & M3) & SM)|H]; [left|right; exact H].
  exists r. split; [exact ER|]. split; [exact Wr|]. split; [exact M1|]. split; [exact M2|].
  assert (ND : forall us, covers us x -> forall ws, coef us r ws = psum CO (fun v => vec_eqb v ws) (map (dterm us s) (vt KS us x))) by (intros us CV ws; rewrite coef_nden, <- vt_psum; apply SM; exact CV).
  split.
  - intros NI. destruct (terms r) as [|[k c] l] eqn:T; [reflexivity|]. exfalso. assert (CV : covers (s_ss x) x) by (split; [apply (wf_ss _ _ _ _ W)|apply incl_refl]).
    assert (CR : covers (s_ss x) r) by (split; [apply (wf_ss _ _ _ _ W)|rewrite M1; apply incl_refl]). assert (I : In (k, c) (terms r)) by (rewrite T; left; reflexivity).
    apply (wf_nonzero _ _ _ _ Wr k c I). rewrite <- (coef_term KO KS CO KL CL (s_ss x) r k c Wr CR I), (ND _ CV). unfold vt. rewrite map_map.
    assert (X : forall Q l, psum CO Q (map (fun e : K * C => dterm (s_ss x) s (spread (s_ss x) (s_ss x) (exps x (fst e)), snd e)) l) = 0c).
    { intros Q l0. induction l0 as [|e l0 IH]; [reflexivity|]. cbn [map]. rewrite (psum_cons CO CL), IH. cbn [DiffProofs.dterm fst snd]. rewrite expo_notin by exact NI. rewrite (ie_zero _ _ CZ). destruct (Q _); cbn [ifP]; ring. }
    apply X.
  - intros us ws CV IS L. rewrite (ND us CV), (coef_nden _ _ _ x), <- vt_psum. apply dterm_coef; auto. intros e. apply vt_len.
Qed.

Lemma diff_ok (x r : series) s : WF x -> diff x s = Ok r -> WF r /\ s_ss r = s_ss x /\ (forall us, covers us x -> same CO (vt KS us r) (map (dterm us s) (vt KS us x))).
Proof.
  intros W E. destruct (diff_loop KO KS CO PO TO KL CL cz CZ x s W) as [(r' & ER & Wr & (M1 & M2 & M3) & SM)|[H _]]; [|congruence]. assert (r' = r) by congruence. subst. auto.
Qed.
Lemma dterm_same us s (l l' : list vterm) : same CO l l' -> same CO (map (dterm us s) l) (map (dterm us s) l').
Proof.
  intros H Q. assert (X : forall l : list vterm, psum CO Q (map (dterm us s) l) = lin 0c (c_add CO) (c_mul CO) (fun c => c) (fun v => cz (expo us v s) *c (if Q (bump us s (-1) v) then c_one CO else 0c)) l).
  { induction l0 as [|e l0 IH]; [reflexivity|]. cbn [map lin]. rewrite (psum_cons CO CL), IH. cbn [DiffProofs.dterm fst snd]. destruct (Q _); cbn [ifP]; ring. }
  rewrite !X. apply (lin_ext CO _ _ _ _ _ _ (cl_ring CO CL) (list_eq_dec Z.eq_dec) (fun c => c)); auto.
Qed.
Lemma dterm_product us s (a b : list vterm) : (forall e, In e a -> len (fst e) = len us) -> (forall e, In e b -> len (fst e) = len us) ->
  same CO (map (dterm us s) (vprod CO a b)) (vprod CO (map (dterm us s) a) b ++ vprod CO a (map (dterm us s) b)).
Proof.
  intros LA LB Q. rewrite (psum_app CO CL). unfold vprod. 
  rewrite <- (map_id b) at 2. rewrite list_prod_map. rewrite <- (map_id a) at 3. rewrite list_prod_map. rewrite !map_map.
  assert (LP : forall p, In p (list_prod a b) -> len (fst (fst p)) = len us /\ len (fst (snd p)) = len us) by (intros [p q] I; apply in_prod_iff in I as [I J]; split; cbn; auto).
  induction (list_prod a b) as [|[p q] l IH]; [unfold psum; cbn; ring|]. cbn [map]. rewrite !(psum_cons CO CL), IH by (intros; apply LP; right; auto). destruct (LP (p, q) (or_introl eq_refl)) as [L1 L2]. cbn [fst snd DiffProofs.dterm vmulp] in *.
  rewrite bump_vadd by auto. assert (EB : vadd (fst p) (bump us s (-1) (fst q)) = vadd (bump us s (-1) (fst p)) (fst q)) by (rewrite vadd_comm, <- bump_vadd by auto; rewrite vadd_comm, bump_vadd by auto; reflexivity). rewrite EB.
  rewrite expo_vadd by auto. rewrite (ie_add _ _ CZ). destruct (Q _); cbn [ifP]; ring.
Qed.

(** C44. Linearity. *)
Theorem diff_additive : forall (x y z dx dy dz : series) s, WF x -> WF y -> Z.of_nat (len (s_ss x) + len (s_ss y)) <= imax size_t ->
  series_add KO CO PO TO x y = Ok z -> diff x s = Ok dx -> diff y s = Ok dy -> diff z s = Ok dz ->
  forall us ws, covers us z -> coef us dz ws = coef us dx ws +c coef us dy ws.
Proof.
  intros x y z dx dy dz s Wx Wy B EZ E1 E2 E3 us ws [SU IU]. pose proof (add_sub_exact KO KS CO PO TO KL CL true x y Wx Wy B) as A. cbv zeta in A. rewrite EZ in A. destruct A as [(z' & [= <-] & Wz & U0 & _ & _ & D0)|[[?|?] _]]; try discriminate.
  assert (CX : covers us x) by (split; [exact SU|intros w I; apply IU, U0; auto]). assert (CY : covers us y) by (split; [exact SU|intros w I; apply IU, U0; auto]). assert (CZ' : covers us z) by (split; auto).
  destruct (diff_ok x dx s Wx E1) as (_ & _ & S1), (diff_ok y dy s Wy E2) as (_ & _ & S2), (diff_ok z dz s Wz E3) as (_ & _ & S3).
  rewrite !coef_nden, <- !vt_psum, (S1 us CX), (S2 us CY), (S3 us CZ'), <- (psum_app CO CL), <- map_app. apply dterm_same. apply (same_eqb CO CL). intros v. rewrite (psum_app CO CL), !vt_psum, <- !coef_nden. apply D0.
Qed.
(** C44. The Leibniz rule. *)
Theorem diff_leibniz : forall E (x y p dp dx dy a b : series) s, env_ok KO KS E -> WF x -> WF y -> Z.of_nat (len (s_ss x) + len (s_ss y)) <= imax size_t ->
  poly_mul KO CO PO TO E x y = Ok p -> diff p s = Ok dp -> diff x s = Ok dx -> diff y s = Ok dy ->
  poly_mul KO CO PO TO E dx y = Ok a -> poly_mul KO CO PO TO E x dy = Ok b ->
  forall us ws, covers us p -> coef us dp ws = coef us a ws +c coef us b ws.
Proof.
  intros E x y p dp dx dy a b s EO Wx Wy B EP E0 E1 E2 E3 E4 us ws [SU IU].
  destruct (mul_exact' KO KS CO PO TO KL CL E x y p EO Wx Wy B EP) as (Wp & U & _).
  assert (CX : covers us x) by (split; [exact SU|intros w I; apply IU, U; auto]). assert (CY : covers us y) by (split; [exact SU|intros w I; apply IU, U; auto]).
  destruct (diff_ok x dx s Wx E1) as (W1 & SS1 & S1), (diff_ok y dy s Wy E2) as (W2 & SS2 & S2), (diff_ok p dp s Wp E0) as (_ & _ & S3).
  destruct (mul_exact' KO KS CO PO TO KL CL E dx y a EO W1 Wy ltac:(rewrite SS1; exact B) E3) as (_ & U3 & _). destruct (mul_exact' KO KS CO PO TO KL CL E x dy b EO Wx W2 ltac:(rewrite SS2; exact B) E4) as (_ & U4 & _).
  assert (I3 : incl (s_ss a) us) by (intros w I; apply U3 in I; rewrite SS1 in I; apply IU, U, I). assert (I4 : incl (s_ss b) us) by (intros w I; apply U4 in I; rewrite SS2 in I; apply IU, U, I).
  rewrite !coef_nden, <- !vt_psum, <- (psum_app CO CL).
  eapply same_trans; [apply S3; split; auto|]. eapply same_trans; [apply dterm_same; apply (mul_same KO KS CO PO TO KL CL E x y p us); auto|]. eapply same_trans; [apply dterm_product; intros e; apply vt_len|].
  apply same_sym. apply (same_app CO CL).
  - eapply same_trans; [apply (mul_same KO KS CO PO TO KL CL E dx y a us); auto; rewrite SS1; exact B|]. apply (same_prod CO CL); [apply S1; exact CX|apply same_refl].
  - eapply same_trans; [apply (mul_same KO KS CO PO TO KL CL E x dy b us); auto; rewrite SS2; exact B|]. apply (same_prod CO CL); [apply same_refl|apply S2; exact CY].
Qed.

(** ** Integration *)
Context (cdiv : C -> Z -> res C) (CD : exact_division CO cz cdiv).
Lemma exact_total : exact_division CO cz cdiv -> total_division cdiv.
Proof. intros H c n N. destruct (H c n N) as (q & E & _). exists q. exact E. Qed.
Notation integrate := (poly_integrate KO CO PO TO cdiv).

(** C45. The symbols of the integral are those of x and s; its coefficients at m s are those of x at m divided by e + 1, and those at monomials without s are zero;
    domain_error is thrown exactly if (some) exponent of s is -1, unless the integral is not representable (or a table is full). *)
Theorem integrate_exact : forall (x : series) s, WF x ->
  exists u, with_symbol (s_ss x) s u /\
  ((exists r, integrate x s = Ok r /\ WF r /\ s_ss r = u /\ s_tag r = s_tag x /\ ~ integ_domain KS x s /\ ~ integ_unrep KS u x s /\
      forall us ws, sorted_set us -> incl u us -> len ws = len us ->
        (expo us ws s <> -1 -> coef us r (bump us s 1 ws) *c cz (expo us ws s + 1) = coef us x ws) /\
        (expo us ws s = 0 -> coef us r ws = 0c)) \/
   (integrate x s = Throw domain_error /\ integ_domain KS x s) \/
   (key_overflow (integrate x s) /\ (unrep KS u x \/ integ_unrep KS u x s \/ full (s_log2 x) (len (terms x))))).
Proof.
  intros x s W. destruct (integ_ok KO KS CO PO TO KL CL cdiv (exact_total CD) x s W) as (u & WS & H). exists u. split; [exact WS|]. destruct H as [(r & E & Wr & H1 & H2 & H3 & H4 & H5 & H6)|H]; [left|right; exact H].
  exists r. split; [exact E|]. split; [exact Wr|]. split; [exact H1|]. split; [exact H2|]. split; [exact H4|]. split; [exact H5|]. intros us ws SU IU L. destruct (H6 us ws SU IU L) as [H7 H8]. split; [|exact H8].
  intros N. rewrite (H7 N). destruct (c_is_zero CO (coef us x ws)) eqn:EZ; [apply (cl_zero _ CL) in EZ; rewrite EZ; ring|]. destruct (CD (coef us x ws) (expo us ws s + 1) ltac:(lia)) as (q & EQ & HQ). unfold quot. rewrite EQ. exact HQ.
Qed.

(** C45. The derivative of the integral is x. *)
Theorem diff_integrate : forall (x r d : series) s, WF x -> integrate x s = Ok r -> diff r s = Ok d ->
  forall us ws, covers us r -> len ws = len us -> coef us d ws = coef us x ws.
Proof.
  intros x r d s W EI ED us ws [SU IU] L. destruct (integrate_exact x s W) as (u & WS & [(r' & E' & Wr & SR & _ & ND & _ & H)|[[? _]|[[?|?] _]]]); try congruence. assert (r' = r) by congruence. subst r'.
  assert (IS : In s us) by (apply IU; rewrite SR; apply WS; auto). destruct (diff_exact r s Wr) as [(d' & E2 & Wd & _ & _ & _ & HD)|[? _]]; [|congruence]. assert (d' = d) by congruence. subst d'.
  rewrite (HD us ws (conj SU IU) IS L). rewrite SR in IU. destruct (H us ws SU IU L) as [H1 _]. destruct (Z.eq_dec (expo us ws s) (-1)) as [M|M].
  - rewrite M. change (-1 + 1) with 0. rewrite (ie_zero _ _ CZ). transitivity 0c; [ring|]. symmetry. apply (coef_zero KS CO CL). intros k c I EQ. apply ND. exists k, c. split; [exact I|]. rewrite <- M, <- EQ. symmetry. apply expo_spread'; [|apply sorted_set_nodup; exact SU].
    intros z J. apply IU, WS. auto.
  - rewrite <- (H1 M). ring.
Qed.
End PC.
Print Assumptions diff_exact.
Print Assumptions diff_additive.
Print Assumptions diff_leibniz.
Print Assumptions integrate_exact.
Print Assumptions diff_integrate.

(** * Non-vacuity *)
Lemma Z_embedding : int_embedding Z_cf (fun z => z). Proof. split; reflexivity. Qed.
Definition Qz (z : Z) : Qc := Q2Qc (inject_Z z).
Lemma Qc_embedding : int_embedding Qc_cf Qz.
Proof. split; [reflexivity|]. intros a b. apply Qc_is_canon. change (Qred (inject_Z (a + b)) == Qred (Qred (inject_Z a) + Qred (inject_Z b)))%Q. rewrite !Qred_correct, inject_Z_plus. reflexivity. Qed.
Definition Qc_div (c : Qc) (n : Z) : res Qc := if n =? 0 then Throw zero_division_error else Ok (c / Qz n)%Qc.
Lemma Qc_division : exact_division Qc_cf Qz Qc_div.
Proof.
  intros c n N. exists (c / Qz n)%Qc. split; [unfold Qc_div; destruct (Z.eqb_spec n 0); [contradiction|reflexivity]|]. cbn. rewrite Qcmult_comm. apply Qcmult_div_r. intros X. apply N. 
  assert (Y : (Qred (inject_Z n) == Qred 0)%Q) by (change (this (Qz n) == this (Q2Qc 0))%Q; rewrite X; reflexivity). rewrite !Qred_correct in Y. unfold Qeq in Y. cbn in Y. lia.
Qed.
(** d/da and d/db of 3 a b^2 - 2 a + 7 b. *)
Example ex_diff : exists da db dc, poly_diff exK Z_cf exP Z_tag (fun z => z) ex_x "a" = Ok da /\ poly_diff exK Z_cf exP Z_tag (fun z => z) ex_x "b" = Ok db /\ poly_diff exK Z_cf exP Z_tag (fun z => z) ex_x "c" = Ok dc /\
  series_size da = 2%nat /\ coef exS Z_cf ["a"; "b"]%string da [0; 2] = 3 /\ coef exS Z_cf ["a"; "b"]%string db [1; 1] = 6 /\ series_size dc = 0%nat.
Proof. do 3 eexists. do 6 (split; [vm_compute; reflexivity|]). vm_compute; reflexivity. Qed.

(** A series with rational coefficients: 1/2 a b^2 - 3 a + 2/3 b, in four segments. *)
Definition buildC {K C Tag : Type} (KO : key_ops K) (CO : cf_ops C) (PO : tbl_policy (K * C)) (tg : Tag) (ss : symbol_set) (l2 : nat) (l : list (K * C)) : res (series K C Tag) :=
  s <- set_n_segments (Series [[]] 0 tg ss) l2 ;; rfold (fun s e => add_term KO CO PO true s (fst e) (snd e)) l s.
Lemma buildC_wf {K C Tag} (KO : key_ops K) (KS : key_sem K) (CO : cf_ops C) PO (tg : Tag) ss l2 l s : key_laws KO KS -> cf_laws CO -> sorted_set ss -> (l2 <= 63)%nat ->
  (forall k c, In (k, c) l -> ks_valid KS (len ss) k) -> buildC KO CO PO tg ss l2 l = Ok s -> wf KO KS CO s /\ s_ss s = ss /\ s_log2 s = l2 /\ s_tag s = tg.
Proof.
  intros KL CL S L V E. unfold buildC in E.
  destruct (set_n_segments_ok KO KS CO (Series [[]] 0 tg ss) l2 L S) as [E0 W0]. cbn [s_tag s_ss] in *. rewrite E0 in E. cbn [bind] in E.
  assert (Q : forall l (s0 : series K C Tag), rfold (fun s e => add_term KO CO PO true s (fst e) (snd e)) l s0 = add_terms KO CO PO true true true true false (fun c : C => c) l s0).
  { clear. induction l; intros; [reflexivity|]. unfold add_terms in *. cbn [map rfold fst snd]. unfold add_term at 1. destruct (series_add_term _ _ _ _ _ _ _ _ _ _ _); cbn [bind]; auto. }
  rewrite Q in E.
  destruct (add_terms_ok KO KS CO PO KL CL (fun c : C => c) true true true true false l _ W0) as [(s' & E' & W' & ((M1 & M2 & M3) & _))|(E' & _)]; try discriminate; auto.
  - intros [?|?]; discriminate.
  - assert (s = s') by congruence. subst. cbn in M1, M2, M3. auto.
  - congruence.
Qed.
Definition qf (n : Z) (d : positive) : Qc := Q2Qc (n # d).
Lemma get_ok {A} (d : A) r : is_ok r = true -> r = Ok (get d r). Proof. destruct r; [reflexivity|discriminate|discriminate]. Qed.
Definition exq_terms : list (Z * Qc) := [(exk [1; 2], qf 1 2); (exk [1; 0], qf (-3) 1); (exk [0; 1], qf 2 3)].
Definition exq : series Z Qc Z := get (series_default Z_tag) (buildC exK Qc_cf (po_front _) 0 ["a"; "b"]%string 2 exq_terms).
Lemma exq_wf : wf exK exS Qc_cf exq /\ s_ss exq = ["a"; "b"]%string /\ s_log2 exq = 2%nat /\ s_tag exq = 0.
Proof.
  apply (buildC_wf exK exS Qc_cf (po_front _) 0 ["a"; "b"]%string 2 exq_terms); [exact exK_laws|exact Qc_cf_laws|repeat constructor|lia| |apply get_ok; vm_compute; reflexivity].
  assert (F : Forall (ks_valid exS 2) (map fst exq_terms)).
  { assert (G : forallb (fun k => existsb (fun v => representsb kd_int64 2 k v) [[1; 2]; [1; 0]; [0; 1]]) (map fst exq_terms) = true) by (vm_compute; reflexivity).
    rewrite forallb_forall in G. apply Forall_forall. intros k Hk. apply G, existsb_exists in Hk. destruct Hk as (v & Hv & R). exists v. apply representsb_ok; auto. }
  intros k c Hk. apply (proj1 (Forall_forall _ _) F). apply (in_map fst) in Hk. exact Hk.
Qed.
(** Its integrals in b, and in the missing symbol ab, which goes between a and b. *)
Definition exq_b := poly_integrate exK Qc_cf (po_front _) Z_tag Qc_div exq "b".
Definition exq_ab := poly_integrate exK Qc_cf (po_front _) Z_tag Qc_div exq "ab".
Definition qeqb (a b : Qc) : bool := c_eqb Qc_cf a b.
Example ex_integrate : exists ib ic d, exq_b = Ok ib /\ exq_ab = Ok ic /\ poly_diff exK Qc_cf (po_front _) Z_tag Qz ic "ab" = Ok d /\ s_ss ic = ["a"; "ab"; "b"]%string /\
  coef exS Qc_cf ["a"; "b"]%string ib [1; 3] = qf 1 6 /\ coef exS Qc_cf ["a"; "b"]%string ib [0; 2] = qf 1 3 /\ coef exS Qc_cf ["a"; "ab"; "b"]%string ic [1; 1; 2] = qf 1 2.
Proof.
  exists (get (series_default Z_tag) exq_b), (get (series_default Z_tag) exq_ab), (get (series_default Z_tag) (poly_diff exK Qc_cf (po_front _) Z_tag Qz (get (series_default Z_tag) exq_ab) "ab")).
  do 3 (split; [apply get_ok; vm_compute; reflexivity|]). split; [vm_compute; reflexivity|].
  do 2 (split; [apply (cl_eqb _ Qc_cf_laws); vm_compute; reflexivity|]). apply (cl_eqb _ Qc_cf_laws). vm_compute. reflexivity.
Qed.
