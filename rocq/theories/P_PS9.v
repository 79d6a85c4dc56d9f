(** Property C97: the laws of the ring of power series, as judged by operator==.  Vocabulary: PSSpec.v ([respects], [no_negative], [within]), SeriesSpec.v ([coef]), CalcSpec.v ([bump]).
    [operands t l]: the power series in l are valid, each is not truncated or has the truncation t, and one of them has it. *)
From Coq Require Import ZArith List Bool String Arith Sorted Permutation Lia Ring Ring_theory.
From Verif Require Import Base KpackModel KpackSpec IntModel IntSpec SymModel SymSpec SymProofs P_Sym PMonModel PMonSpec KeyOps KeyInst
  SeriesModel SeriesModel2 SeriesSpec SeriesProofs SeriesProofs2 SeriesProofs3 SeriesProofs4 SeriesProofs5 SeriesProofs6 Lin EvalSpec SeriesEval SeriesProofs7 CfInst P_Series P_Series2
  PolyModel PolyModel2 PolySpec PolyProofs7 PolyProofs8 PolyProofs9 P_Poly P_Poly2 CalcSpec DiffProofs P_Calc PSModel PSSpec PSProofs PowProofs PowProofs2 P_PS P_PS3 P_PS4 PSPow SubsSpec SubsProofs PSSubs.
Import ListNotations.
Open Scope Z_scope.
Open Scope res_scope.
Local Notation len := List.length.

Section Laws.
Context {K C : Type} (KO : key_ops K) (KS : key_sem K) (CO : cf_ops C) (PO : tbl_policy (K * C)) (tD : ity).
Context (KL : key_laws KO KS) (CL : cf_laws CO) (HT : integral_type tD) (DI : degrees_in KS tD) (HP : promote tD = tD).
Notation series := (series K C trunc_t).
Notation WF := (wf KO KS CO).
Notation TO := ps_tag_ops.
Notation coef := (coef KS CO).
Notation exps s k := (ks_exps KS (List.length (s_ss s)) k).
Notation "0c" := (c_zero CO).
Infix "+c" := (c_add CO) (at level 50, left associativity).
Infix "*c" := (c_mul CO) (at level 40, left associativity).
Add Ring CringP9 : (cl_ring _ CL).
Notation vterm := (list Z * C)%type.
Notation vt := (vt KS).
Notation equal := (series_equal_to KO CO PO TO).
Notation mul E := (ps_mul KO CO PO E tD).
Notation add := (ps_add KO CO PO tD).

Definition operands (t : trunc_t) (l : list series) : Prop :=
  Forall (fun x => WF x /\ (s_tag x = no_truncation \/ s_tag x = t)) l /\ Exists (fun x : series => s_tag x = t) l.
(** The degrees of the products of two monomials are values of the degree type, see [pm_sums_fit], [dpm_total_fit], [dpm_unsigned_fit] (PolyProofs8.v). *)
Definition degrees_fit (t : trunc_t) : Prop := t <> no_truncation -> forall u, sums_fit KS tD (counted t) u.
Definition few_symbols (l : list series) : Prop := Z.of_nat (2 * fold_right (fun x n => (len (s_ss x) + n)%nat) O l) <= imax size_t.

(** ** operator== *)
Lemma equal_true (a b : series) : WF a -> WF b -> s_ss a = s_ss b -> s_tag a = s_tag b -> (forall ws, coef (s_ss a) a ws = coef (s_ss a) b ws) -> equal a b = Ok true.
Proof.
  intros WA WB SS TT H. unfold series_equal_to. rewrite (proj2 (ss_eqb_iff _ _) SS). destruct (cmp_ok KO KS CO TO KL CL a b WA WB SS) as (r & E & R & _). rewrite E. f_equal. apply R.
  split; [cbn; rewrite TT; destruct (s_tag b); cbn; rewrite ?Z.eqb_refl, ?(proj2 (ss_eqb_iff _ _) eq_refl); reflexivity|].
  intros ws. specialize (H ws). unfold SeriesSpec.coef in H. unfold vden. rewrite <- SS in H. rewrite <- SS.
  transitivity (psum CO (fun k => vec_eqb (spread (s_ss a) (s_ss a) (ks_exps KS (len (s_ss a)) k)) ws) (terms a)); [|rewrite H].
  - apply psum_ext; auto. intros k c I. rewrite spread_self; auto; [apply sorted_set_nodup, (wf_ss _ _ _ _ WA)|apply (kl_len _ _ KL), (wf_valid _ _ _ _ WA k c I)].
  - apply psum_ext; auto. intros k c I. rewrite spread_self; auto; [apply sorted_set_nodup, (wf_ss _ _ _ _ WA)|]. rewrite SS. apply (kl_len _ _ KL), (wf_valid _ _ _ _ WB k c I).
Qed.

(** ** Products and sums of operands with a common truncation *)
Definition jt (a b : trunc_t) : trunc_t := match a with no_truncation => b | _ => a end.
Section Common.
Variable (t : trunc_t).
Hypothesis (TK : trunc_ok tD t) (SF : degrees_fit t).
Definition tg (s : series) : Prop := s_tag s = no_truncation \/ s_tag s = t.
Lemma tg_joint (a b : series) : tg a -> tg b -> joint (s_tag a) (s_tag b) (jt (s_tag a) (s_tag b)) /\ (jt (s_tag a) (s_tag b) = no_truncation \/ jt (s_tag a) (s_tag b) = t).
Proof.
  intros [A|A] [B|B]; rewrite A, B.
  - split; [left; split; reflexivity|left; reflexivity].
  - split; [right; left; split; reflexivity|right; reflexivity].
  - destruct t; cbn [jt]; (split; [|auto]); [left; split; reflexivity| |]; right; right; split; reflexivity.
  - destruct t; cbn [jt]; (split; [|auto]); left; split; reflexivity.
Qed.
Lemma jt_t a b : a = no_truncation \/ a = t -> b = no_truncation \/ b = t -> a = t \/ b = t -> jt a b = t.
Proof. intros [->| ->] [->| ->] [X|X]; rewrite <- ?X; cbn [jt]; try congruence; destruct t; reflexivity. Qed.
Lemma tg_ok (s : series) : tg s -> trunc_ok tD (s_tag s).
Proof. intros [->| ->]; [exact Logic.I|exact TK]. Qed.
Lemma psum_coef us (s : series) ws : psum CO (fun v => vec_eqb v ws) (vt us s) = coef us s ws.
Proof. rewrite vt_psum, <- coef_nden. reflexivity. Qed.
Lemma prod_psum us (a b : series) ws : prod_coef KS CO us a b ws = psum CO (fun v => vec_eqb v ws) (vprod CO (vt us a) (vt us b)).
Proof. rewrite psum_vprod. symmetry. apply bil_prod_coef. Qed.

Lemma mul_inv E (a b r : series) : env_ok KO KS E -> WF a -> WF b -> tg a -> tg b -> Z.of_nat (len (s_ss a) + len (s_ss b)) <= imax size_t -> mul E a b = Ok r ->
  WF r /\ union_of (s_ss a) (s_ss b) (s_ss r) /\ tg r /\ s_tag r = jt (s_tag a) (s_tag b) /\ respects KS r /\
  forall us ws, covers us r -> coef us r ws = if within (s_tag r) us ws then psum CO (fun v => vec_eqb v ws) (vprod CO (vt us a) (vt us b)) else 0c.
Proof.
  intros EO Wa Wb Ta Tb B ER. destruct (tg_joint a b Ta Tb) as [J T'].
  destruct (ps_mul_exact KO KS CO PO tD KL CL HT HP E a b EO Wa Wb (tg_ok a Ta) (tg_ok b Tb) B) as [_ M]. cbv zeta in M.
  destruct (M _ J) as (u & U & [(r' & ER' & Wr & SR & TR & _ & RR & CR)|[KE _]]).
  - intros u _ NT. destruct T' as [T'|T']; rewrite T' in *; [congruence|]. apply SF. exact NT.
  - assert (r' = r) by congruence. subst r'. split; [exact Wr|]. split; [rewrite SR; exact U|]. split; [unfold tg; rewrite TR; exact T'|]. split; [exact TR|]. split; [exact RR|].
    intros us ws [SU IU]. rewrite CR by (auto; rewrite <- SR; exact IU). rewrite TR, prod_psum. reflexivity.
  - exfalso. destruct KE as [KE|KE]; congruence.
Qed.
Lemma add_inv (a b r : series) : WF a -> WF b -> tg a -> tg b -> respects KS a -> respects KS b -> Z.of_nat (len (s_ss a) + len (s_ss b)) <= imax size_t -> add a b = Ok r ->
  WF r /\ union_of (s_ss a) (s_ss b) (s_ss r) /\ tg r /\ s_tag r = jt (s_tag a) (s_tag b) /\ respects KS r /\
  forall us ws, covers us r -> coef us r ws = if within (s_tag r) us ws then psum CO (fun v => vec_eqb v ws) (vt us a ++ vt us b) else 0c.
Proof.
  intros Wa Wb Ta Tb RA RB B ER. destruct (tg_joint a b Ta Tb) as [J T'].
  destruct (ps_add_sub_exact KO KS CO PO tD KL CL HT DI true false false a b Wa Wb (tg_ok a Ta) (tg_ok b Tb) ltac:(discriminate) B) as [_ M]. cbv zeta in M. cbn iota in M.
  destruct (M _ J) as [(r' & ER' & Wr & TR & U & H)|[KE _]].
  - assert (r' = r) by congruence. subst r'. destruct (H RA RB) as [RR CR]. split; [exact Wr|]. split; [exact U|]. split; [unfold tg; rewrite TR; exact T'|]. split; [exact TR|]. split; [exact RR|].
    intros us ws CV. rewrite CR by exact CV. rewrite TR, (psum_app CO CL), !psum_coef. reflexivity.
  - exfalso. destruct KE as [KE|KE]; congruence.
Qed.
Lemma union_len (a b c : symbol_set) : union_of a b c -> (len c <= len a + len b)%nat.
Proof. intros [S U]. rewrite <- app_length. apply NoDup_incl_length; [apply sorted_set_nodup; exact S|]. intros w I. apply in_or_app. apply U. exact I. Qed.

(** Lists of terms without negative degrees, and their equality up to the truncation (PSSubs.v). *)
Notation nn us := (@PSSubs.nn C t us).
Notation upto us := (PSSubs.upto CO t us).
Lemma within_tag (r : series) us ws : tg r -> within t us ws = true -> within (s_tag r) us ws = true.
Proof. intros [->| ->] H; [reflexivity|exact H]. Qed.
Lemma inv_upto us (r : series) L : WF r -> tg r -> covers us r -> nn us L -> (forall ws, coef us r ws = if within (s_tag r) us ws then psum CO (fun v => vec_eqb v ws) L else 0c) ->
  nn us (vt us r) /\ upto us (vt us r) L.
Proof.
  intros Wr Tr CV NL H. split.
  - apply (nn_coef KO KS CO CL t us r L Wr CV NL). intros k c I. pose proof (wf_nonzero _ _ _ _ Wr k c I) as NZ. rewrite <- (coef_term KO KS CO KL CL us r k c Wr CV I), H in NZ. destruct (within (s_tag r) us _); [exact NZ|congruence].
  - intros ws L0 WI. rewrite psum_coef, H, (within_tag r us ws Tr WI). reflexivity.
Qed.
Lemma nn_app us a b : nn us a -> nn us b -> nn us (a ++ b).
Proof. intros A B e I. apply in_app_iff in I as [I|I]; auto. Qed.
Lemma vden_len us (r : series) ws : len ws <> len us -> coef us r ws = 0c.
Proof.
  intros N. rewrite <- psum_coef. destruct (c_is_zero CO (psum CO (fun v => vec_eqb v ws) (vt us r))) eqn:Z0; [apply (cl_zero _ CL); exact Z0|]. exfalso.
  assert (NZ : psum CO (fun v => vec_eqb v ws) (vt us r) <> 0c) by (intros X; apply (proj2 (cl_zero _ CL _)) in X; congruence).
  apply (psum_nonzero CO CL) in NZ as (e & I & Q). apply vec_eqb_iff in Q. apply N. rewrite <- Q. apply (vt_len KS us r e I).
Qed.
(** Two results with the truncation t. *)
Lemma results_equal (p q : series) : WF p -> WF q -> s_ss p = s_ss q -> s_tag p = t -> s_tag q = t -> respects KS p -> respects KS q -> upto (s_ss p) (vt (s_ss p) p) (vt (s_ss p) q) ->
  equal p q = Ok true /\ forall us ws, covers us p -> coef us p ws = coef us q ws.
Proof.
  intros Wp Wq SS Tp Tq Rp Rq U.
  assert (E : forall ws, coef (s_ss p) p ws = coef (s_ss p) q ws).
  { intros ws. destruct (Nat.eq_dec (len ws) (len (s_ss p))) as [L|N]; [|rewrite !vden_len by exact N; reflexivity]. destruct (within t (s_ss p) ws) eqn:WI; [rewrite <- !psum_coef; apply U; auto|].
    assert (Z0 : forall r : series, WF r -> s_ss r = s_ss p -> s_tag r = t -> respects KS r -> coef (s_ss p) r ws = 0c).
    { intros r Wr Sr Tr Rr. destruct (c_is_zero CO (coef (s_ss p) r ws)) eqn:Z0; [apply (cl_zero _ CL); exact Z0|]. exfalso. assert (NZ : coef (s_ss p) r ws <> 0c) by (intros X; apply (proj2 (cl_zero _ CL _)) in X; congruence).
      assert (CV : covers (s_ss p) r) by (split; [apply (wf_ss _ _ _ _ Wp)|rewrite Sr; apply incl_refl]). apply (coef_nonzero KO KS CO KL CL (s_ss p) r ws Wr CV) in NZ as (k & c & I & EQ). specialize (Rr k c I). rewrite Tr in Rr.
      rewrite <- Sr in EQ. rewrite spread_self in EQ by (try (apply sorted_set_nodup, (wf_ss _ _ _ _ Wr)); apply (kl_len _ _ KL); eapply wf_valid; eauto). rewrite EQ, Sr in Rr. congruence. }
    rewrite !Z0 by auto. reflexivity. }
  assert (EQ : equal p q = Ok true) by (apply equal_true; auto; congruence). split; [exact EQ|].
  intros us ws _. destruct (cmp_ok KO KS CO TO KL CL p q Wp Wq SS) as (r & E1 & _ & PM). unfold series_equal_to in EQ. rewrite (proj2 (ss_eqb_iff _ _) SS) in EQ. rewrite EQ in E1. assert (r = true) by congruence. subst r.
  unfold SeriesSpec.coef. rewrite SS. apply psum_perm; auto.
Qed.

(** C97. The product is commutative, whatever the algorithms, segmentations and schedules of the two multiplications are. *)
Theorem ps_mul_commutative : forall E E' (x y r r' : series), env_ok KO KS E -> env_ok KO KS E' -> operands t [x; y] -> few_symbols [x; y] ->
  mul E x y = Ok r -> mul E' y x = Ok r' -> equal r r' = Ok true /\ s_tag r = t /\ forall us ws, covers us r -> coef us r ws = coef us r' ws.
Proof.
  intros E E' x y r r' EO EO' [FA EX] FS E1 E2. apply Forall_cons_iff in FA as [[Wx Tx] FA]. apply Forall_cons_iff in FA as [[Wy Ty] _]. unfold few_symbols in FS. cbn [fold_right] in FS.
  assert (TT : s_tag x = t \/ s_tag y = t) by (apply Exists_exists in EX as (w & [<-|[<-|[]]] & H); auto).
  destruct (mul_inv E x y r EO Wx Wy Tx Ty ltac:(lia) E1) as (W1 & U1 & T1 & J1 & R1 & C1). destruct (mul_inv E' y x r' EO' Wy Wx Ty Tx ltac:(lia) E2) as (W2 & U2 & T2 & J2 & R2 & C2).
  assert (SS : s_ss r = s_ss r') by (destruct U1 as [S1 U1], U2 as [S2 U2]; apply sorted_ext; auto; intros w; rewrite U1, U2; tauto).
  assert (TR : s_tag r = t) by (rewrite J1; apply jt_t; auto). assert (TR' : s_tag r' = t) by (rewrite J2; apply jt_t; tauto).
  assert (CV : covers (s_ss r) r) by (split; [apply (wf_ss _ _ _ _ W1)|apply incl_refl]). assert (CV' : covers (s_ss r) r') by (split; [apply (wf_ss _ _ _ _ W1)|rewrite SS; apply incl_refl]).
  destruct (results_equal r r' W1 W2 SS TR TR' R1 R2) as [A B]; [|auto].
  intros ws L WI. rewrite !psum_coef, (C1 _ _ CV), (C2 _ _ CV'), TR, TR', WI. apply (same_swap CO CL).
Qed.

(** C97. The product is associative if no term has a negative degree (in the symbols counted by the truncation). *)
Theorem ps_mul_associative_partial : forall E1 E2 E3 E4 (x y z xy xy_z yz x_yz : series), env_ok KO KS E1 -> env_ok KO KS E2 -> env_ok KO KS E3 -> env_ok KO KS E4 ->
  operands t [x; y; z] -> few_symbols [x; y; z] -> Forall (no_negative KS t) [x; y; z] ->
  mul E1 x y = Ok xy -> mul E2 xy z = Ok xy_z -> mul E3 y z = Ok yz -> mul E4 x yz = Ok x_yz ->
  equal xy_z x_yz = Ok true /\ s_tag xy_z = t /\ forall us ws, covers us xy_z -> coef us xy_z ws = coef us x_yz ws.
Proof.
  intros E1 E2 E3 E4 x y z xy xy_z yz x_yz O1 O2 O3 O4 [FA EX] FS NN M1 M2 M3 M4. apply Forall_cons_iff in FA as [[Wx Tx] FA]. apply Forall_cons_iff in FA as [[Wy Ty] FA]. apply Forall_cons_iff in FA as [[Wz Tz] _].
  apply Forall_cons_iff in NN as [Nx NN]. apply Forall_cons_iff in NN as [Ny NN]. apply Forall_cons_iff in NN as [Nz _]. unfold few_symbols in FS. cbn [fold_right] in FS.
  assert (TT : s_tag x = t \/ s_tag y = t \/ s_tag z = t).
  { apply Exists_exists in EX as (w & [<-|[<-|[<-|[]]]] & H); auto. }
  destruct (mul_inv E1 x y xy O1 Wx Wy Tx Ty ltac:(lia) M1) as (W1 & U1 & T1 & J1 & R1 & C1). pose proof (union_len _ _ _ U1) as L1.
  destruct (mul_inv E2 xy z xy_z O2 W1 Wz T1 Tz ltac:(lia) M2) as (W2 & U2 & T2 & J2 & R2 & C2).
  destruct (mul_inv E3 y z yz O3 Wy Wz Ty Tz ltac:(lia) M3) as (W3 & U3 & T3 & J3 & R3 & C3). pose proof (union_len _ _ _ U3) as L3.
  destruct (mul_inv E4 x yz x_yz O4 Wx W3 Tx T3 ltac:(lia) M4) as (W4 & U4 & T4 & J4 & R4 & C4).
  assert (SS : s_ss xy_z = s_ss x_yz). { destruct U1 as [_ U1], U2 as [S2 U2], U3 as [_ U3], U4 as [S4 U4]. apply sorted_ext; auto. intros w. rewrite U2, U4, U1, U3. tauto. }
  assert (TR : s_tag xy_z = t /\ s_tag x_yz = t) by (split; [rewrite J2|rewrite J4]; (apply jt_t; [assumption|assumption|]); destruct TT as [X|[X|X]]; auto; [left; rewrite J1|left; rewrite J1|right; rewrite J3|right; rewrite J3]; apply jt_t; auto).
  destruct TR as [TR TR']. set (us := s_ss xy_z) in *. assert (SU : sorted_set us) by apply (wf_ss _ _ _ _ W2).
  assert (IN : forall a : series, incl (s_ss a) us -> covers us a) by (intros a I; split; auto).
  assert (Ixy : covers us xy) by (apply IN; intros w I; apply U2; auto). assert (Cz : covers us z) by (apply IN; intros w I; apply U2; auto). assert (Cx : covers us x) by (apply IN; intros w I; apply Ixy, U1; auto). assert (Cy : covers us y) by (apply IN; intros w I; apply Ixy, U1; auto).
  assert (Iyz : covers us yz) by (apply IN; intros w I; rewrite SS; apply U4; auto). assert (CV : covers us xy_z) by (apply IN; apply incl_refl). assert (CV' : covers us x_yz) by (apply IN; rewrite SS; apply incl_refl).
  pose proof (nn_vt KO KS CO KL t us x Wx Cx Nx) as NX. pose proof (nn_vt KO KS CO KL t us y Wy Cy Ny) as NY. pose proof (nn_vt KO KS CO KL t us z Wz Cz Nz) as NZ.
  destruct (inv_upto us xy _ W1 T1 Ixy (nn_prod CO t us _ _ NX NY) (fun ws => C1 us ws Ixy)) as [NXY UXY]. destruct (inv_upto us yz _ W3 T3 Iyz (nn_prod CO t us _ _ NY NZ) (fun ws => C3 us ws Iyz)) as [NYZ UYZ].
  destruct (results_equal xy_z x_yz W2 W4 SS TR TR' R2 R4) as [A B]; [|auto]. fold us.
  intros ws L WI. rewrite !psum_coef, (C2 _ _ CV), (C4 _ _ CV'), TR, TR', WI.
  rewrite (upto_prod CO CL t us _ _ _ _ NXY (nn_prod CO t us _ _ NX NY) NZ NZ UXY (fun _ _ _ => eq_refl) ws L WI), (vprod_assoc CO CL).
  symmetry. apply (upto_prod_r CO CL t us); auto. apply nn_prod; auto.
Qed.

(** C97. The sum is associative. *)
Theorem ps_add_associative : forall (x y z xy xy_z yz x_yz : series), operands t [x; y; z] -> few_symbols [x; y; z] -> Forall (respects KS) [x; y; z] ->
  add x y = Ok xy -> add xy z = Ok xy_z -> add y z = Ok yz -> add x yz = Ok x_yz ->
  equal xy_z x_yz = Ok true /\ s_tag xy_z = t /\ forall us ws, covers us xy_z -> coef us xy_z ws = coef us x_yz ws.
Proof.
  intros x y z xy xy_z yz x_yz [FA EX] FS NN M1 M2 M3 M4. apply Forall_cons_iff in FA as [[Wx Tx] FA]. apply Forall_cons_iff in FA as [[Wy Ty] FA]. apply Forall_cons_iff in FA as [[Wz Tz] _].
  apply Forall_cons_iff in NN as [Rx NN]. apply Forall_cons_iff in NN as [Ry NN]. apply Forall_cons_iff in NN as [Rz _]. unfold few_symbols in FS. cbn [fold_right] in FS.
  assert (TT : s_tag x = t \/ s_tag y = t \/ s_tag z = t).
  { apply Exists_exists in EX as (w & [<-|[<-|[<-|[]]]] & H); auto. }
  destruct (add_inv x y xy Wx Wy Tx Ty Rx Ry ltac:(lia) M1) as (W1 & U1 & T1 & J1 & R1 & C1). pose proof (union_len _ _ _ U1) as L1.
  destruct (add_inv xy z xy_z W1 Wz T1 Tz R1 Rz ltac:(lia) M2) as (W2 & U2 & T2 & J2 & R2 & C2).
  destruct (add_inv y z yz Wy Wz Ty Tz Ry Rz ltac:(lia) M3) as (W3 & U3 & T3 & J3 & R3 & C3). pose proof (union_len _ _ _ U3) as L3.
  destruct (add_inv x yz x_yz Wx W3 Tx T3 Rx R3 ltac:(lia) M4) as (W4 & U4 & T4 & J4 & R4 & C4).
  assert (SS : s_ss xy_z = s_ss x_yz). { destruct U1 as [_ U1], U2 as [S2 U2], U3 as [_ U3], U4 as [S4 U4]. apply sorted_ext; auto. intros w. rewrite U2, U4, U1, U3. tauto. }
  assert (TR : s_tag xy_z = t /\ s_tag x_yz = t) by (split; [rewrite J2|rewrite J4]; (apply jt_t; [assumption|assumption|]); destruct TT as [X|[X|X]]; auto; [left; rewrite J1|left; rewrite J1|right; rewrite J3|right; rewrite J3]; apply jt_t; auto).
  destruct TR as [TR TR']. set (us := s_ss xy_z) in *. assert (SU : sorted_set us) by apply (wf_ss _ _ _ _ W2).
  assert (IN : forall a : series, incl (s_ss a) us -> covers us a) by (intros a I; split; auto).
  assert (Ixy : covers us xy) by (apply IN; intros w I; apply U2; auto).
  assert (Iyz : covers us yz) by (apply IN; intros w I; rewrite SS; apply U4; auto). assert (CV : covers us xy_z) by (apply IN; apply incl_refl). assert (CV' : covers us x_yz) by (apply IN; rewrite SS; apply incl_refl).
  destruct (results_equal xy_z x_yz W2 W4 SS TR TR' R2 R4) as [A B]; [|auto]. fold us.
  intros ws L WI. rewrite !psum_coef, (C2 _ _ CV), (C4 _ _ CV'), TR, TR', WI, !(psum_app CO CL), !psum_coef, (C1 _ _ Ixy), (C3 _ _ Iyz), !(psum_app CO CL), !psum_coef, (within_tag xy us ws T1 WI), (within_tag yz us ws T3 WI). ring.
Qed.

(** C97. The product distributes over the sum if all three power series have the same truncation, or no term has a negative degree. *)
Theorem ps_distributive_partial : forall E1 E2 E3 (x y z s l xy xz r : series), env_ok KO KS E1 -> env_ok KO KS E2 -> env_ok KO KS E3 ->
  operands t [x; y; z] -> few_symbols [x; y; z; x] -> respects KS y -> respects KS z -> Forall (no_negative KS t) [x; y; z] \/ Forall (fun a : series => s_tag a = t) [x; y; z] ->
  add y z = Ok s -> mul E1 x s = Ok l -> mul E2 x y = Ok xy -> mul E3 x z = Ok xz -> add xy xz = Ok r ->
  equal l r = Ok true /\ s_tag l = t /\ forall us ws, covers us l -> coef us l ws = coef us r ws.
Proof.
  intros E1 E2 E3 x y z s l xy xz r O1 O2 O3 [FA EX] FS Ry Rz NN M0 M1 M2 M3 M4. apply Forall_cons_iff in FA as [[Wx Tx] FA]. apply Forall_cons_iff in FA as [[Wy Ty] FA]. apply Forall_cons_iff in FA as [[Wz Tz] _].
  unfold few_symbols in FS. cbn [fold_right] in FS.
  assert (TT : s_tag x = t \/ s_tag y = t \/ s_tag z = t).
  { apply Exists_exists in EX as (w & [<-|[<-|[<-|[]]]] & H); auto. }
  destruct (add_inv y z s Wy Wz Ty Tz Ry Rz ltac:(lia) M0) as (W0 & U0 & T0 & J0 & R0 & C0). pose proof (union_len _ _ _ U0) as L0.
  destruct (mul_inv E1 x s l O1 Wx W0 Tx T0 ltac:(lia) M1) as (W1 & U1 & T1 & J1 & R1 & C1).
  destruct (mul_inv E2 x y xy O2 Wx Wy Tx Ty ltac:(lia) M2) as (W2 & U2 & T2 & J2 & R2 & C2). pose proof (union_len _ _ _ U2) as L2.
  destruct (mul_inv E3 x z xz O3 Wx Wz Tx Tz ltac:(lia) M3) as (W3 & U3 & T3 & J3 & R3 & C3). pose proof (union_len _ _ _ U3) as L3.
  destruct (add_inv xy xz r W2 W3 T2 T3 R2 R3 ltac:(lia) M4) as (W4 & U4 & T4 & J4 & R4 & C4).
  assert (SS : s_ss l = s_ss r). { destruct U0 as [_ U0], U1 as [S1 U1], U2 as [_ U2], U3 as [_ U3], U4 as [S4 U4]. apply sorted_ext; auto. intros w. rewrite U1, U4, U0, U2, U3. tauto. }
  assert (TR : s_tag l = t /\ s_tag r = t) by (split; [rewrite J1|rewrite J4]; (apply jt_t; [assumption|assumption|]); destruct TT as [X|[X|X]]; auto; [right; rewrite J0|right; rewrite J0|left; rewrite J2|left; rewrite J2|right; rewrite J3]; apply jt_t; auto).
  destruct TR as [TR TR']. set (us := s_ss l) in *. assert (SU : sorted_set us) by apply (wf_ss _ _ _ _ W1).
  assert (IN : forall a : series, incl (s_ss a) us -> covers us a) by (intros a I; split; auto).
  assert (Cs : covers us s) by (apply IN; intros w I; apply U1; auto). assert (Cx : covers us x) by (apply IN; intros w I; apply U1; auto). assert (Cy : covers us y) by (apply IN; intros w I; apply Cs, U0; auto). assert (Cz : covers us z) by (apply IN; intros w I; apply Cs, U0; auto).
  assert (CV : covers us l) by (apply IN; apply incl_refl). assert (CV' : covers us r) by (apply IN; rewrite SS; apply incl_refl). assert (Cxy : covers us xy) by (apply IN; intros w I; apply CV', U4; auto). assert (Cxz : covers us xz) by (apply IN; intros w I; apply CV', U4; auto).
  destruct (results_equal l r W1 W4 SS TR TR' R1 R4) as [A B]; [|auto]. fold us.
  intros ws L WI. rewrite !psum_coef, (C1 _ _ CV), (C4 _ _ CV'), TR, TR', WI, (psum_app CO CL), !psum_coef, (C2 _ _ Cxy), (C3 _ _ Cxz), (within_tag xy us ws T2 WI), (within_tag xz us ws T3 WI).
  assert (DIST : psum CO (fun v => vec_eqb v ws) (vprod CO (vt us x) (vt us y ++ vt us z)) = psum CO (fun v => vec_eqb v ws) (vprod CO (vt us x) (vt us y)) +c psum CO (fun v => vec_eqb v ws) (vprod CO (vt us x) (vt us z))).
  { rewrite (same_swap CO CL), vprod_app, (psum_app CO CL), (same_swap CO CL (vt us y)), (same_swap CO CL (vt us z)). reflexivity. }
  rewrite <- DIST. destruct NN as [NN|NN].
  - apply Forall_cons_iff in NN as [Nx NN]. apply Forall_cons_iff in NN as [Ny NN]. apply Forall_cons_iff in NN as [Nz _].
    pose proof (nn_vt KO KS CO KL t us x Wx Cx Nx) as NX. pose proof (nn_vt KO KS CO KL t us y Wy Cy Ny) as NY. pose proof (nn_vt KO KS CO KL t us z Wz Cz Nz) as NZ.
    destruct (inv_upto us s _ W0 T0 Cs (nn_app us _ _ NY NZ) (fun ws => C0 us ws Cs)) as [NS US]. apply (upto_prod_r CO CL t us); auto. apply nn_app; auto.
  - apply Forall_cons_iff in NN as [Nx NN]. apply Forall_cons_iff in NN as [Ny NN]. apply Forall_cons_iff in NN as [Nz _].
    assert (Ts : s_tag s = t) by (rewrite J0, Ny, Nz; destruct t; reflexivity).
    apply (same_prod CO CL); [apply same_refl|]. apply (same_eqb CO CL). intros v. rewrite psum_coef, (C0 _ _ Cs), Ts. destruct (within t us v) eqn:WV; [reflexivity|].
    rewrite (psum_app CO CL), !psum_coef. assert (Z0 : forall a : series, WF a -> covers us a -> s_tag a = t -> respects KS a -> coef us a v = 0c).
    { intros a Wa Ca Ta Ra. destruct (c_is_zero CO (coef us a v)) eqn:Z0; [apply (cl_zero _ CL); exact Z0|]. exfalso. assert (NZ : coef us a v <> 0c) by (intros X; apply (proj2 (cl_zero _ CL _)) in X; congruence).
      apply (coef_nonzero KO KS CO KL CL us a v Wa Ca) in NZ as (k & c & I & EQ). specialize (Ra k c I). rewrite Ta in Ra. rewrite <- EQ in WV.
      assert (LK : len (exps a k) = len (s_ss a)) by (apply (kl_len _ _ KL); eapply wf_valid; eauto).
      assert (DG : forall sel, degree_of sel us (spread (s_ss a) us (exps a k)) = degree_of sel (s_ss a) (exps a k)) by (intros sel; apply degree_spread; [apply sorted_set_nodup, (wf_ss _ _ _ _ Wa)|apply sorted_set_nodup, Ca|apply Ca|exact LK]).
      assert (X : within t us (spread (s_ss a) us (exps a k)) = within t (s_ss a) (exps a k)) by (destruct t; cbn [within]; rewrite ?DG; reflexivity). congruence. }
    rewrite !Z0 by auto. ring.
Qed.

(** C97. The Leibniz rule holds for the coefficients of the monomials m for which m s is within the truncation. *)
Theorem ps_leibniz_partial : forall cz, int_embedding CO cz -> forall E1 E2 E3 (x y p dp dx dy a b : series) s, env_ok KO KS E1 -> env_ok KO KS E2 -> env_ok KO KS E3 ->
  operands t [x; y] -> few_symbols [x; y] ->
  mul E1 x y = Ok p -> ps_diff KO CO PO cz p s = Ok dp -> ps_diff KO CO PO cz x s = Ok dx -> ps_diff KO CO PO cz y s = Ok dy -> mul E2 dx y = Ok a -> mul E3 x dy = Ok b ->
  forall us ws, covers us p -> In s us -> len ws = len us -> within t us (bump us s 1 ws) = true -> coef us dp ws = coef us a ws +c coef us b ws.
Proof.
  intros cz CZ E1 E2 E3 x y p dp dx dy a b s O1 O2 O3 [FA _] FS M1 D0 D1 D2 M2 M3 us ws [SU IU] IS L WI. apply Forall_cons_iff in FA as [[Wx Tx] FA]. apply Forall_cons_iff in FA as [[Wy Ty] _]. unfold few_symbols in FS. cbn [fold_right] in FS.
  assert (TG : forall u du : series, WF u -> tg u -> ps_diff KO CO PO cz u s = Ok du -> tg du).
  { intros u du Wu Tu E. destruct (ps_diff_exact KO KS CO PO KL CL cz CZ u s Wu) as [(r' & ER & _ & _ & TR & _)|[ER _]]; [|congruence]. assert (r' = du) by congruence. subst r'. unfold tg. rewrite TR. exact Tu. }
  unfold ps_diff in D0, D1, D2, TG.
  destruct (mul_inv E1 x y p O1 Wx Wy Tx Ty ltac:(lia) M1) as (Wp & Up & Tp & Jp & _ & Cp).
  destruct (diff_ok KO KS CO PO TO KL CL cz CZ x dx s Wx D1) as (W1 & S1 & V1). destruct (diff_ok KO KS CO PO TO KL CL cz CZ y dy s Wy D2) as (W2 & S2 & V2). destruct (diff_ok KO KS CO PO TO KL CL cz CZ p dp s Wp D0) as (W0 & S0 & V0).
  assert (Cx : covers us x) by (split; [exact SU|intros w I; apply IU, Up; auto]). assert (Cy : covers us y) by (split; [exact SU|intros w I; apply IU, Up; auto]).
  destruct (mul_inv E2 dx y a O2 W1 Wy (TG x dx Wx Tx D1) Ty ltac:(rewrite S1; lia) M2) as (Wa & Ua & Ta & _ & _ & Ca). destruct (mul_inv E3 x dy b O3 Wx W2 Tx (TG y dy Wy Ty D2) ltac:(rewrite S2; lia) M3) as (Wb & Ub & Tb & _ & _ & Cb).
  assert (CVa : covers us a) by (split; [exact SU|intros w I; apply Ua in I; rewrite S1 in I; apply IU, Up, I]). assert (CVb : covers us b) by (split; [exact SU|intros w I; apply Ub in I; rewrite S2 in I; apply IU, Up, I]). assert (CVp : covers us p) by (split; assumption).
  pose proof (within_bump t s us ws L WI) as WS.
  rewrite (Ca _ _ CVa), (Cb _ _ CVb), (within_tag a us ws Ta WS), (within_tag b us ws Tb WS).
  rewrite (same_prod CO CL _ _ _ _ (V1 us Cx) (same_refl CO (vt us y))), (same_prod CO CL _ _ _ _ (same_refl CO (vt us x)) (V2 us Cy)), <- (psum_app CO CL).
  rewrite <- (dterm_product CO CL cz CZ us s (vt us x) (vt us y) (fun e => vt_len KS us x e) (fun e => vt_len KS us y e)).
  rewrite (dterm_coef CO CL cz us s (vprod CO (vt us x) (vt us y)) ws IS L) by (intros e I; apply (vprod_len CO (len us) _ _ (fun e => vt_len KS us x e) (fun e => vt_len KS us y e) e I)).
  rewrite <- psum_coef, (V0 us CVp), (dterm_coef CO CL cz us s (vt us p) ws IS L) by (intros e; apply vt_len). f_equal. rewrite psum_coef, (Cp _ _ CVp), (within_tag p us _ Tp WI). reflexivity.
Qed.

(** The part of x within the truncation t. *)
Lemma kept_part (x x' : series) : WF x -> WF x' -> s_ss x' = s_ss x -> (forall k c, In (k, c) (terms x') <-> In (k, c) (terms x) /\ within t (s_ss x) (exps x k) = true) ->
  forall us ws, covers us x -> coef us x' ws = if within t us ws then coef us x ws else 0c.
Proof.
  intros Wx Wx' SS H us ws CV. assert (CV' : covers us x') by (destruct CV as [S I]; split; [exact S|rewrite SS; exact I]).
  assert (EX : forall k, exps x' k = exps x k) by (intros k; rewrite SS; reflexivity).
  assert (WI : forall k c, In (k, c) (terms x) -> within t us (spread (s_ss x) us (exps x k)) = within t (s_ss x) (exps x k)).
  { intros k c I. assert (DG : forall sel, degree_of sel us (spread (s_ss x) us (exps x k)) = degree_of sel (s_ss x) (exps x k)).
    { intros sel. apply degree_spread; [apply sorted_set_nodup, (wf_ss _ _ _ _ Wx)|apply sorted_set_nodup, CV|apply CV|apply (kl_len _ _ KL); eapply wf_valid; eauto]. }
    destruct t; cbn [within]; rewrite ?DG; reflexivity. }
  destruct (c_is_zero CO (coef us x' ws)) eqn:Z0.
  - apply (cl_zero _ CL) in Z0. rewrite Z0. destruct (within t us ws) eqn:E; [|reflexivity]. destruct (c_is_zero CO (coef us x ws)) eqn:Z1; [apply (cl_zero _ CL) in Z1; auto|]. exfalso.
    assert (NZ : coef us x ws <> 0c) by (intros X; apply (proj2 (cl_zero _ CL _)) in X; congruence). apply (coef_nonzero KO KS CO KL CL us x ws Wx CV) in NZ as (k & c & I & EQ). rewrite <- EQ, (WI k c I) in E.
    assert (I' : In (k, c) (terms x')) by (apply H; auto). pose proof (coef_term KO KS CO KL CL us x' k c Wx' CV' I') as CT. rewrite EX, SS, EQ, Z0 in CT. apply (wf_nonzero _ _ _ _ Wx' k c I'). congruence.
  - assert (NZ : coef us x' ws <> 0c) by (intros X; apply (proj2 (cl_zero _ CL _)) in X; congruence). apply (coef_nonzero KO KS CO KL CL us x' ws Wx' CV') in NZ as (k & c & I & EQ). pose proof (coef_term KO KS CO KL CL us x' k c Wx' CV' I) as CT. rewrite EQ in CT. rewrite CT.
    apply H in I as [I E]. rewrite EX, SS in EQ. rewrite <- EQ, (WI k c I), E. symmetry. apply (coef_term KO KS CO KL CL us x k c Wx CV I).
Qed.
Lemma truncate_multiply E E' (x y p x' y' r p' : series) : env_ok KO KS E -> env_ok KO KS E' -> WF x -> WF y -> s_tag x = no_truncation -> s_tag y = no_truncation ->
  few_symbols [x; y] -> no_negative KS t x -> no_negative KS t y ->
  (forall a a', In (a, a') [(x, x'); (y, y'); (p, p')] -> WF a' /\ s_ss a' = s_ss a /\ s_tag a' = t /\ respects KS a' /\ (forall k c, In (k, c) (terms a') <-> In (k, c) (terms a) /\ within t (s_ss a) (exps a k) = true)) ->
  mul E x' y' = Ok r -> mul E' x y = Ok p -> equal r p' = Ok true /\ s_tag r = t /\ forall us ws, covers us r -> coef us r ws = coef us p' ws.
Proof.
  intros EO EO' Wx Wy Tx Ty FS Nx Ny H M1 M2. unfold few_symbols in FS. cbn [fold_right] in FS.
  destruct (H x x') as (Wx' & Sx & Tx' & _ & Fx); [left; reflexivity|]. destruct (H y y') as (Wy' & Sy & Ty' & _ & Fy); [right; left; reflexivity|]. destruct (H p p') as (Wp' & Sp & Tp' & Rp & Fp); [right; right; left; reflexivity|].
  destruct (mul_inv E x' y' r EO Wx' Wy' (or_intror Tx') (or_intror Ty') ltac:(rewrite Sx, Sy; lia) M1) as (Wr & Ur & Tr & Jr & Rr & Cr). destruct (mul_inv E' x y p EO' Wx Wy (or_introl Tx) (or_introl Ty) ltac:(lia) M2) as (Wp & Up & Tp & Jp & _ & Cp).
  assert (TR : s_tag r = t) by (rewrite Jr, Tx', Ty'; destruct t; reflexivity).
  assert (SS : s_ss r = s_ss p') by (rewrite Sp; rewrite Sx, Sy in Ur; destruct Ur as [S1 U1], Up as [S2 U2]; apply sorted_ext; auto; intros w; rewrite U1, U2; tauto).
  assert (SU : sorted_set (s_ss r)) by apply (wf_ss _ _ _ _ Wr). set (us := s_ss r) in *. assert (IN : forall a : series, incl (s_ss a) us -> covers us a) by (intros a I; split; auto).
  assert (CV : covers us r) by (apply IN, incl_refl). assert (CP' : covers us p') by (apply IN; rewrite SS; apply incl_refl). assert (CP : covers us p) by (apply IN; rewrite SS, Sp; apply incl_refl).
  assert (CX : covers us x) by (apply IN; intros w I; apply CP, Up; auto). assert (CY : covers us y) by (apply IN; intros w I; apply CP, Up; auto).
  destruct (results_equal r p' Wr Wp' SS TR Tp' Rr Rp) as [A B]; [|auto]. fold us. intros ws L WI.
  rewrite !psum_coef, (Cr _ _ CV), TR, WI, (kept_part p p' Wp Wp' Sp Fp us ws CP), WI, (Cp _ _ CP), Jp, Tx, Ty. cbn [jt within].
  assert (PART : forall a a' : series, WF a -> WF a' -> covers us a -> s_ss a' = s_ss a -> s_tag a' = t -> no_negative KS t a -> (forall k c, In (k, c) (terms a') <-> In (k, c) (terms a) /\ within t (s_ss a) (exps a k) = true) ->
                 nn us (vt us a') /\ nn us (vt us a) /\ upto us (vt us a') (vt us a)).
  { intros a a' Wa Wa' Ca Sa Ta Na Fa. pose proof (nn_vt KO KS CO KL t us a Wa Ca Na) as NA. assert (Ca' : covers us a') by (apply IN; rewrite Sa; apply Ca).
    destruct (inv_upto us a' (vt us a) Wa' (or_intror Ta) Ca' NA) as [N U]; [|auto]. intros v. rewrite Ta, (kept_part a a' Wa Wa' Sa Fa us v Ca), psum_coef. reflexivity. }
  destruct (PART x x' Wx Wx' CX Sx Tx' Nx Fx) as (N1 & N2 & U1). destruct (PART y y' Wy Wy' CY Sy Ty' Ny Fy) as (N3 & N4 & U2). apply (upto_prod CO CL t us); auto.
Qed.
End Common.

(** C97. Truncating the factors and multiplying is multiplying and truncating the product, if no term has a negative degree. *)
Theorem ps_truncate_multiply_partial : forall tV d E E' (x y p x' y' r p' : series), limit_value tV d -> degrees_fit (total_truncation d) -> env_ok KO KS E -> env_ok KO KS E' -> WF x -> WF y ->
  s_tag x = no_truncation -> s_tag y = no_truncation -> few_symbols [x; y] -> no_negative KS (total_truncation d) x -> no_negative KS (total_truncation d) y ->
  set_truncation KO tD tV d x = (Ok tt, x') -> set_truncation KO tD tV d y = (Ok tt, y') -> mul E x' y' = Ok r ->
  mul E' x y = Ok p -> set_truncation KO tD tV d p = (Ok tt, p') ->
  equal r p' = Ok true /\ s_tag r = total_truncation d /\ forall us ws, covers us r -> coef us r ws = coef us p' ws.
Proof.
  intros tV d E E' x y p x' y' r p' LV SF EO EO' Wx Wy Tx Ty FS Nx Ny E1 E2 M1 M2 E3.
  assert (ST : forall a a' : series, WF a -> set_truncation KO tD tV d a = (Ok tt, a') -> has_value tD d /\ WF a' /\ s_ss a' = s_ss a /\ s_tag a' = total_truncation d /\ respects KS a' /\ (forall k c, In (k, c) (terms a') <-> In (k, c) (terms a) /\ within (total_truncation d) (s_ss a) (exps a k) = true)).
  { intros a a' Wa E0. pose proof (set_truncation_exact KO KS CO tD KL HT DI tV d a Wa LV) as S. rewrite E0 in S. destruct S as [(_ & W & SS & _ & G & R & F)|[(X & _)|(X & _)]]; try discriminate X.
    split; [|split; [exact W|split; [exact SS|split; [exact G|split; [exact R|intros k c; rewrite F; cbn [within]; rewrite Z.leb_le; reflexivity]]]]].
    destruct (cast_ok tD HT tV d LV) as [[V _]|[_ X]]; [exact V|]. unfold set_truncation in E0. rewrite X in E0. discriminate E0. }
  pose proof (ST x x' Wx E1) as (HV & _).
  assert (B : Z.of_nat (len (s_ss x) + len (s_ss y)) <= imax size_t) by (unfold few_symbols in FS; cbn [fold_right] in FS; lia).
  destruct (mul_inv (total_truncation d) HV SF E' x y p EO' Wx Wy (or_introl Tx) (or_introl Ty) B M2) as (Wp & _).
  apply (truncate_multiply (total_truncation d) HV SF E E' x y p x' y'); auto.
  intros a a' [X|[X|[X|[]]]]; injection X as <- <-; apply ST; auto.
Qed.
Theorem ps_truncate_multiply_p_partial : forall tV d syms E E' (x y p x' y' r p' : series), limit_value tV d -> sorted_set syms -> degrees_fit (partial_truncation d syms) -> env_ok KO KS E -> env_ok KO KS E' -> WF x -> WF y ->
  s_tag x = no_truncation -> s_tag y = no_truncation -> few_symbols [x; y] -> no_negative KS (partial_truncation d syms) x -> no_negative KS (partial_truncation d syms) y ->
  set_truncation_p KO tD tV d syms x = (Ok tt, x') -> set_truncation_p KO tD tV d syms y = (Ok tt, y') -> mul E x' y' = Ok r ->
  mul E' x y = Ok p -> set_truncation_p KO tD tV d syms p = (Ok tt, p') ->
  equal r p' = Ok true /\ s_tag r = partial_truncation d syms /\ forall us ws, covers us r -> coef us r ws = coef us p' ws.
Proof.
  intros tV d syms E E' x y p x' y' r p' LV SS0 SF EO EO' Wx Wy Tx Ty FS Nx Ny E1 E2 M1 M2 E3.
  assert (ST : forall a a' : series, WF a -> set_truncation_p KO tD tV d syms a = (Ok tt, a') -> has_value tD d /\ WF a' /\ s_ss a' = s_ss a /\ s_tag a' = partial_truncation d syms /\ respects KS a' /\ (forall k c, In (k, c) (terms a') <-> In (k, c) (terms a) /\ within (partial_truncation d syms) (s_ss a) (exps a k) = true)).
  { intros a a' Wa E0. pose proof (set_truncation_p_exact KO KS CO tD KL HT DI tV d syms a Wa LV SS0) as S. rewrite E0 in S. destruct S as [(_ & W & SS & _ & G & R & F)|[(X & _)|(X & _)]]; try discriminate X.
    split; [|split; [exact W|split; [exact SS|split; [exact G|split; [exact R|intros k c; rewrite F; cbn [within]; rewrite Z.leb_le; reflexivity]]]]].
    destruct (cast_ok tD HT tV d LV) as [[V _]|[_ X]]; [exact V|]. unfold set_truncation_p in E0. rewrite X in E0. discriminate E0. }
  pose proof (ST x x' Wx E1) as (HV & _).
  assert (B : Z.of_nat (len (s_ss x) + len (s_ss y)) <= imax size_t) by (unfold few_symbols in FS; cbn [fold_right] in FS; lia).
  destruct (mul_inv (partial_truncation d syms) (conj HV SS0) SF E' x y p EO' Wx Wy (or_introl Tx) (or_introl Ty) B M2) as (Wp & _).
  apply (truncate_multiply (partial_truncation d syms) (conj HV SS0) SF E E' x y p x' y'); auto.
  intros a a' [X|[X|[X|[]]]]; injection X as <- <-; apply ST; auto.
Qed.
End Laws.

(** * Non-vacuity: power series over int64 exponents; 1 + 2 a - 3 b + 5 a b with total truncation 2 and 4 a - b, not truncated (P_PS4.v). *)
Notation xmul E := (ps_mul exK Z_cf exP E tD).
Notation xadd := (ps_add exK Z_cf exP tD).
Notation xequal := (series_equal_to exK Z_cf exP ps_tag_ops).
Notation xdiff := (ps_diff exK Z_cf exP (fun z => z)).
Notation t2 := (total_truncation 2).
Lemma ex_fit t : degrees_fit exS tD t.
Proof. intros _ u. apply (pm_sums_fit kd_int64). right; right; left; reflexivity. Qed.
Lemma ex_operands : operands exK exS Z_cf t2 [ps_x; ps_y; ps_y] /\ few_symbols (K := Z) (C := Z) [ps_x; ps_y; ps_y; ps_x] /\ Forall (no_negative exS t2) [ps_x; ps_y; ps_y] /\ Forall (respects exS) [ps_x; ps_y; ps_y].
Proof.
  destruct ps_x_wf as (Wx & _ & _ & Tx), ps_y_wf as (Wy & _ & _ & Ty), ps_x_nonneg as (Nx & Rx). rewrite Tx in Nx.
  assert (Ny : no_negative exS t2 ps_y).
  { right. intros k c I. assert (A : forallb (fun e => 0 <=? degree_of (counted t2) (s_ss ps_y) (ks_exps exS (len (s_ss ps_y)) (fst e))) (terms ps_y) = true) by (vm_compute; reflexivity).
    rewrite forallb_forall in A. specialize (A _ I). apply Z.leb_le. exact A. }
  assert (Ry : respects exS ps_y) by (intros k c I; rewrite Ty; reflexivity).
  split; [|split; [vm_compute; congruence|split; repeat (constructor; [assumption|]); constructor]].
  split; [|constructor; exact Tx]. constructor; [split; [exact Wx|right; exact Tx]|]. constructor; [split; [exact Wy|left; exact Ty]|]. constructor; [split; [exact Wy|left; exact Ty]|constructor].
Qed.
(** (x y) z and x (y z), computed with different algorithms; x (y + z) and x y + x z; the exact product has a term of degree 3 which is not kept. *)
Example ex_laws : exists xy xy_z yz x_yz s l r, xmul (psE false 0) ps_x ps_y = Ok xy /\ xmul (psE true 2) xy ps_y = Ok xy_z /\ xmul (psE true 1) ps_y ps_y = Ok yz /\ xmul (psE false 0) ps_x yz = Ok x_yz /\ series_size xy_z = 3%nat /\
  prod_coef exS Z_cf ["a"; "b"]%string ps_x yz [3; 0] = 32 /\ coef exS Z_cf ["a"; "b"]%string xy_z [3; 0] = 0 /\ coef exS Z_cf ["a"; "b"]%string xy_z [2; 0] = 16 /\ xequal xy_z x_yz = Ok true /\
  xadd ps_y ps_y = Ok s /\ xmul (psE true 2) ps_x s = Ok l /\ xadd xy xy = Ok r /\ series_size l = 5%nat /\ xequal l r = Ok true.
Proof. do 7 eexists. do 13 (split; [vm_compute; reflexivity|]). vm_compute; reflexivity. Qed.

(** C97. With negative degrees the product is not associative: (a^-1 a) a = a, but a a has degree 2 and is dropped if the limit is 1. *)
Definition ps9_i := psb (total_truncation 1) ["a"]%string 0 [([-1], 1)].
Definition ps9_a := psb (total_truncation 1) ["a"]%string 0 [([1], 1)].
Theorem ps_mul_associative_refuted : exists (x y xy xy_z yz x_yz : series Z Z trunc_t), operands exK exS Z_cf (total_truncation 1) [x; y; y] /\ few_symbols [x; y; y] /\ Forall (respects exS) [x; y; y] /\ env_ok exK exS (psE false 0) /\
  xmul (psE false 0) x y = Ok xy /\ xmul (psE false 0) xy y = Ok xy_z /\ xmul (psE false 0) y y = Ok yz /\ xmul (psE false 0) x yz = Ok x_yz /\
  coef exS Z_cf ["a"]%string xy_z [1] = 1 /\ coef exS Z_cf ["a"]%string x_yz [1] = 0 /\ xequal xy_z x_yz = Ok false.
Proof.
  pose proof (psb_wf (total_truncation 1) ["a"]%string 0 [([-1], 1)] ltac:(repeat constructor) ltac:(lia) ltac:(vm_compute; reflexivity)) as W. fold ps9_i in W. cbv zeta in W. destruct W as (Wi & _ & _ & Ti).
  pose proof (psb_wf (total_truncation 1) ["a"]%string 0 [([1], 1)] ltac:(repeat constructor) ltac:(lia) ltac:(vm_compute; reflexivity)) as W. fold ps9_a in W. cbv zeta in W. destruct W as (Wa & _ & _ & Ta).
  exists ps9_i, ps9_a. do 4 eexists.
  split. { split; [|constructor; exact Ti]. constructor; [split; [exact Wi|right; exact Ti]|]. constructor; [split; [exact Wa|right; exact Ta]|]. constructor; [split; [exact Wa|right; exact Ta]|constructor]. }
  split; [vm_compute; congruence|].
  split. { assert (Ri : respects exS ps9_i) by (intros k c I; assert (A : forallb (fun e => within (s_tag ps9_i) (s_ss ps9_i) (ks_exps exS (len (s_ss ps9_i)) (fst e))) (terms ps9_i) = true) by (vm_compute; reflexivity); rewrite forallb_forall in A; exact (A _ I)).
    assert (Ra : respects exS ps9_a) by (intros k c I; assert (A : forallb (fun e => within (s_tag ps9_a) (s_ss ps9_a) (ks_exps exS (len (s_ss ps9_a)) (fst e))) (terms ps9_a) = true) by (vm_compute; reflexivity); rewrite forallb_forall in A; exact (A _ I)).
    repeat (constructor; [assumption|]). constructor. }
  split; [apply psE_ok|]. do 6 (split; [vm_compute; reflexivity|]). vm_compute; reflexivity.
Qed.
(** C97. With negative degrees and different truncations the product does not distribute over the sum: a^-1 (a^2 + 1), where 1 has the limit 1. *)
Definition ps9_j := psb no_truncation ["a"]%string 0 [([-1], 1)].
Definition ps9_q := psb no_truncation ["a"]%string 0 [([2], 1)].
Definition ps9_1 := psb (total_truncation 1) ["a"]%string 0 [([0], 1)].
Theorem ps_distributive_refuted : exists (x y z s l xy xz r : series Z Z trunc_t), operands exK exS Z_cf (total_truncation 1) [x; y; z] /\ few_symbols [x; y; z; x] /\ respects exS y /\ respects exS z /\ env_ok exK exS (psE false 0) /\
  xadd y z = Ok s /\ xmul (psE false 0) x s = Ok l /\ xmul (psE false 0) x y = Ok xy /\ xmul (psE false 0) x z = Ok xz /\ xadd xy xz = Ok r /\
  coef exS Z_cf ["a"]%string l [1] = 0 /\ coef exS Z_cf ["a"]%string r [1] = 1 /\ xequal l r = Ok false.
Proof.
  pose proof (psb_wf no_truncation ["a"]%string 0 [([-1], 1)] ltac:(repeat constructor) ltac:(lia) ltac:(vm_compute; reflexivity)) as W. fold ps9_j in W. cbv zeta in W. destruct W as (Wi & _ & _ & Ti).
  pose proof (psb_wf no_truncation ["a"]%string 0 [([2], 1)] ltac:(repeat constructor) ltac:(lia) ltac:(vm_compute; reflexivity)) as W. fold ps9_q in W. cbv zeta in W. destruct W as (Wa & _ & _ & Ta).
  pose proof (psb_wf (total_truncation 1) ["a"]%string 0 [([0], 1)] ltac:(repeat constructor) ltac:(lia) ltac:(vm_compute; reflexivity)) as W. fold ps9_1 in W. cbv zeta in W. destruct W as (W1 & _ & _ & T1).
  exists ps9_j, ps9_q, ps9_1. do 5 eexists.
  split. { split; [|constructor 2; constructor 2; constructor; exact T1]. constructor; [split; [exact Wi|left; exact Ti]|]. constructor; [split; [exact Wa|left; exact Ta]|]. constructor; [split; [exact W1|right; exact T1]|constructor]. }
  split; [vm_compute; congruence|]. split; [intros k c I; rewrite Ta; reflexivity|].
  split. { intros k c I; assert (A : forallb (fun e => within (s_tag ps9_1) (s_ss ps9_1) (ks_exps exS (len (s_ss ps9_1)) (fst e))) (terms ps9_1) = true) by (vm_compute; reflexivity); rewrite forallb_forall in A; exact (A _ I). }
  split; [apply psE_ok|]. do 7 (split; [vm_compute; reflexivity|]). vm_compute; reflexivity.
Qed.
(** C97. The Leibniz rule fails at the limit of the truncation: with limit 1, a a is dropped and its derivative is zero, but 1 a + a 1 = 2 a. *)
Theorem ps_leibniz_refuted : exists (x p dp dx a b r : series Z Z trunc_t), operands exK exS Z_cf (total_truncation 1) [x; x] /\ few_symbols [x; x] /\ respects exS x /\ env_ok exK exS (psE false 0) /\
  xmul (psE false 0) x x = Ok p /\ xdiff p "a"%string = Ok dp /\ xdiff x "a"%string = Ok dx /\ xmul (psE false 0) dx x = Ok a /\ xmul (psE false 0) x dx = Ok b /\ xadd a b = Ok r /\
  within (total_truncation 1) ["a"]%string [1] = true /\ coef exS Z_cf ["a"]%string dp [1] = 0 /\ coef exS Z_cf ["a"]%string r [1] = 2 /\ xequal dp r = Ok false.
Proof.
  pose proof (psb_wf (total_truncation 1) ["a"]%string 0 [([1], 1)] ltac:(repeat constructor) ltac:(lia) ltac:(vm_compute; reflexivity)) as W. fold ps9_a in W. cbv zeta in W. destruct W as (Wa & _ & _ & Ta).
  exists ps9_a. do 6 eexists. split. { split; [|constructor; exact Ta]. constructor; [split; [exact Wa|right; exact Ta]|]. constructor; [split; [exact Wa|right; exact Ta]|constructor]. }
  split; [vm_compute; congruence|].
  split. { intros k c I; assert (A : forallb (fun e => within (s_tag ps9_a) (s_ss ps9_a) (ks_exps exS (len (s_ss ps9_a)) (fst e))) (terms ps9_a) = true) by (vm_compute; reflexivity); rewrite forallb_forall in A; exact (A _ I). }
  split; [apply psE_ok|]. do 9 (split; [vm_compute; reflexivity|]). vm_compute; reflexivity.
Qed.
(** C97. With negative degrees, truncating the factors is not truncating the product: a^-1 a^2 with limit 1. *)
Theorem ps_truncate_multiply_refuted : exists (x y p x' y' r p' : series Z Z trunc_t), wf exK exS Z_cf x /\ wf exK exS Z_cf y /\ s_tag x = no_truncation /\ s_tag y = no_truncation /\ env_ok exK exS (psE false 0) /\
  set_truncation exK tD int32 1 x = (Ok tt, x') /\ set_truncation exK tD int32 1 y = (Ok tt, y') /\ xmul (psE false 0) x' y' = Ok r /\ xmul (psE false 0) x y = Ok p /\ set_truncation exK tD int32 1 p = (Ok tt, p') /\
  coef exS Z_cf ["a"]%string r [1] = 0 /\ coef exS Z_cf ["a"]%string p' [1] = 1 /\ xequal r p' = Ok false.
Proof.
  pose proof (psb_wf no_truncation ["a"]%string 0 [([-1], 1)] ltac:(repeat constructor) ltac:(lia) ltac:(vm_compute; reflexivity)) as W. fold ps9_j in W. cbv zeta in W. destruct W as (Wi & _ & _ & Ti).
  pose proof (psb_wf no_truncation ["a"]%string 0 [([2], 1)] ltac:(repeat constructor) ltac:(lia) ltac:(vm_compute; reflexivity)) as W. fold ps9_q in W. cbv zeta in W. destruct W as (Wa & _ & _ & Ta).
  exists ps9_j, ps9_q. do 5 eexists. split; [exact Wi|]. split; [exact Wa|]. split; [exact Ti|]. split; [exact Ta|]. split; [apply psE_ok|]. do 7 (split; [vm_compute; reflexivity|]). vm_compute; reflexivity.
Qed.
(** The hypotheses of the Leibniz rule and of the theorems on truncation: x with limit 2 and y as above; x and y without truncation, limited to 2. *)
Example ex_leibniz : exists p dp dx dy a b, xmul (psE false 0) ps_x ps_y = Ok p /\ xdiff p "a"%string = Ok dp /\ xdiff ps_x "a"%string = Ok dx /\ xdiff ps_y "a"%string = Ok dy /\ xmul (psE true 2) dx ps_y = Ok a /\ xmul (psE false 0) ps_x dy = Ok b /\
  within t2 ["a"; "b"]%string (bump ["a"; "b"]%string "a"%string 1 [0; 1]) = true /\ coef exS Z_cf ["a"; "b"]%string dp [0; 1] = -14 /\ coef exS Z_cf ["a"; "b"]%string a [0; 1] = -2 /\ coef exS Z_cf ["a"; "b"]%string b [0; 1] = -12.
Proof. do 6 eexists. do 9 (split; [vm_compute; reflexivity|]). vm_compute; reflexivity. Qed.
Definition ps9_x := psb no_truncation ["a"; "b"]%string 1 [([0; 0], 1); ([1; 0], 2); ([0; 3], -3); ([1; 1], 5)].
Lemma ps9_x_ok : wf exK exS Z_cf ps9_x /\ s_tag ps9_x = no_truncation /\ no_negative exS t2 ps9_x /\ few_symbols [ps9_x; ps_y] /\ limit_value int32 2.
Proof.
  pose proof (psb_wf no_truncation ["a"; "b"]%string 1 [([0; 0], 1); ([1; 0], 2); ([0; 3], -3); ([1; 1], 5)] ltac:(repeat constructor) ltac:(lia) ltac:(vm_compute; reflexivity)) as W. fold ps9_x in W. cbv zeta in W. destruct W as (W & _ & _ & T).
  split; [exact W|]. split; [exact T|]. split; [|split; [vm_compute; congruence|split; [right; exists 32, true; split; [cbn; auto|reflexivity]|split; vm_compute; congruence]]].
  right. intros k c I. assert (A : forallb (fun e => 0 <=? degree_of (counted t2) (s_ss ps9_x) (ks_exps exS (len (s_ss ps9_x)) (fst e))) (terms ps9_x) = true) by (vm_compute; reflexivity).
  rewrite forallb_forall in A. specialize (A _ I). apply Z.leb_le. exact A.
Qed.
Example ex_truncate_multiply : exists p x' y' r p', set_truncation exK tD int32 2 ps9_x = (Ok tt, x') /\ set_truncation exK tD int32 2 ps_y = (Ok tt, y') /\ xmul (psE false 0) x' y' = Ok r /\ xmul (psE true 2) ps9_x ps_y = Ok p /\
  set_truncation exK tD int32 2 p = (Ok tt, p') /\ xequal r p' = Ok true /\ series_size x' = 3%nat /\ series_size p = 8%nat /\ series_size r = 4%nat.
Proof. do 5 eexists. do 8 (split; [vm_compute; reflexivity|]). vm_compute; reflexivity. Qed.

Print Assumptions ps_mul_commutative.
Print Assumptions ps_mul_associative_partial.
Print Assumptions ps_add_associative.
Print Assumptions ps_distributive_partial.
Print Assumptions ps_leibniz_partial.
Print Assumptions ps_truncate_multiply_partial.
Print Assumptions ps_truncate_multiply_p_partial.
Print Assumptions ps_mul_associative_refuted.
Print Assumptions ps_distributive_refuted.
Print Assumptions ps_leibniz_refuted.
Print Assumptions ps_truncate_multiply_refuted.
