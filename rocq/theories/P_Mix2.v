(** Properties C81 and C82: sums, differences and comparison of series, and the arithmetic of power series, whose coefficients have different types, as
    integers and rationals.  Vocabulary: SeriesSpec.v, PolySpec.v, PSSpec.v and MixSpec.v. *)
From Coq Require Import ZArith List Bool String Arith Sorted Permutation Lia QArith Qcanon.
From Verif Require Import Base KpackModel KpackSpec KpackProofs P_Kpack IntModel IntSpec IntProofs SymModel SymSpec SymProofs P_Sym PMonModel PMonSpec PMonProofs PMonProofs2 P_PMon
  DPMModel DPMSpec DPMProofs DPMProofs2 DPMProofs3 P_DPM KeyOps KeyInst
  SeriesModel SeriesModel2 SeriesSpec SeriesProofs SeriesProofs2 SeriesProofs3 SeriesProofs4 SeriesProofs5 SeriesProofs6 Lin EvalSpec SeriesEval SeriesProofs7 CfInst P_Series P_Series2
  PolyModel PolyModel2 PolySpec PolyProofs7 PolyProofs8 PolyProofs9 P_Poly P_Poly2 CalcSpec P_Calc PSModel PSSpec PSProofs MixModel MixModel2 MixSpec MixProofs MixProofs2 P_Mix P_PS P_PS4.
Import ListNotations.
Open Scope Z_scope.
Open Scope res_scope.
Local Notation len := List.length.

Lemma emb_id {C} (CO : cf_ops C) : cf_embedding CO CO (fun c => c). Proof. split; auto. Qed.

(** * C81: series *)
(** How a series with coefficients C' is made a series with coefficients C: it is one, and is left alone, or its coefficients are converted. *)
Inductive operand_of {K C Tag : Type} (KO : key_ops K) (CO : cf_ops C) (PO : tbl_policy (K * C)) : forall C' : Type, cf_ops C' -> (C' -> C) -> @operand K C Tag C' -> Prop :=
  | operand_same : operand_of KO CO PO C CO (fun c => c) op_same
  | operand_conv : forall C' (CO' : cf_ops C') f, cf_laws CO' -> cf_embedding CO' CO f -> operand_of KO CO PO C' CO' f (op_conv KO CO PO f).
Arguments operand_of {K C Tag} KO CO PO {C'}.

Section MixS.
Context {K C Tag : Type} (KO : key_ops K) (KS : key_sem K) (CO : cf_ops C) (PO : tbl_policy (K * C)) (TO : tag_ops Tag).
Context (KL : key_laws KO KS) (CL : cf_laws CO).
Add Ring Cring : (cl_ring CO CL).
Notation WF := (wf KO KS CO).

Lemma operand_of_ok {C'} (CO' : cf_ops C') f (o : @operand K C Tag C') : operand_of KO CO PO CO' f o -> opd_ok KO KS CO CO' o /\ forall c, o_conv o c = f c.
Proof.
  intros H. destruct H as [|C' CO' f CL' [E0 EA EN]]; (split; [|intros c; reflexivity]).
  - apply op_same_ok.
  - apply op_conv_ok; auto.
Qed.

(** C81. Sums and differences: over the union of the symbols, the converted coefficients are added or subtracted. *)
Theorem mixed_sum_exact : forall C1 C2 (CO1 : cf_ops C1) (CO2 : cf_ops C2) f1 f2 (ox : @operand K C Tag C1) (oy : @operand K C Tag C2) sign (x : series K C1 Tag) (y : series K C2 Tag),
  operand_of KO CO PO CO1 f1 ox -> operand_of KO CO PO CO2 f2 oy -> wf KO KS CO1 x -> wf KO KS CO2 y -> Z.of_nat (len (s_ss x) + len (s_ss y)) <= imax size_t ->
  let out := series_addsub KO CO PO TO sign ox oy x y in
  (exists r, out = Ok r /\ WF r /\ union_of (s_ss x) (s_ss y) (s_ss r) /\ (series_size r <= series_size x + series_size y)%nat /\
     forall us ws, coef KS CO us r ws = if sign : bool then c_add CO (f1 (coef KS CO1 us x ws)) (f2 (coef KS CO2 us y ws)) else c_sub CO (f1 (coef KS CO1 us x ws)) (f2 (coef KS CO2 us y ws))) \/
  (key_overflow out /\
   ((exists u, union_of (s_ss x) (s_ss y) u /\ (unrep KS u x \/ unrep KS u y)) \/ full (s_log2 x) (series_size x + series_size y) \/ full (s_log2 y) (series_size x + series_size y))).
Proof.
  intros C1 C2 CO1 CO2 f1 f2 ox oy sign x y HX HY WX WY SZ out. unfold out. clear out. destruct (operand_of_ok _ _ _ HX) as [OX EX]. destruct (operand_of_ok _ _ _ HY) as [OY EY].
  destruct (addsub_ok KO KS CO PO TO KL CL CO1 CO2 sign ox oy x y OX OY WX WY SZ) as [(r & ER & W & SR & _ & _ & D & N)|[ER H]].
  - left. exists r. split; [exact ER|]. split; [exact W|]. split; [split; [apply (wf_ss _ _ _ _ W)|exact SR]|]. rewrite !size_terms. split; [exact N|].
    intros us ws. rewrite !coef_nden, D, EX, EY. unfold sg. destruct sign; [reflexivity|]. ring.
  - right. split; [exact ER|]. rewrite !size_terms. destruct H as [(u & SU & IU & H)|H]; [left; exists u; split; [split; assumption|exact H]|right; exact H].
Qed.

(** C81. In place: the type of the result is that of the first operand; the conversion of the second need only be additive. *)
Theorem mixed_in_place_exact : forall CY (COY : cf_ops CY) (POY : tbl_policy (K * CY)) (f : CY -> C) sign (x : series K C Tag) (y : series K CY Tag),
  cf_laws COY -> f (c_zero COY) = c_zero CO -> (forall a b, f (c_add COY a b) = c_add CO (f a) (f b)) -> WF x -> wf KO KS COY y -> Z.of_nat (len (s_ss x) + len (s_ss y)) <= imax size_t ->
  let out := series_in_place_addsub KO CO PO COY POY TO sign f x false y in
  (exists r, out = Ok r /\ WF r /\ union_of (s_ss x) (s_ss y) (s_ss r) /\ s_log2 r = s_log2 x /\ (series_size r <= series_size x + series_size y)%nat /\
     forall us ws, coef KS CO us r ws = if sign : bool then c_add CO (coef KS CO us x ws) (f (coef KS COY us y ws)) else c_sub CO (coef KS CO us x ws) (f (coef KS COY us y ws))) \/
  (key_overflow out /\
   ((exists u, union_of (s_ss x) (s_ss y) u /\ (unrep KS u x \/ unrep KS u y)) \/ full (s_log2 x) (series_size x + series_size y) \/ full (s_log2 y) (series_size x + series_size y))).
Proof.
  intros CY COY POY f sign x y CLY F0 FA WX WY SZ out. unfold out. clear out.
  destruct (in_place_ok KO KS CO COY PO POY TO KL CL CLY f F0 FA sign x false y WX WY SZ ltac:(discriminate)) as [(r & ER & W & SR & LR & D & N)|[ER H]].
  - left. exists r. split; [exact ER|]. split; [exact W|]. split; [split; [apply (wf_ss _ _ _ _ W)|exact SR]|]. split; [exact LR|]. rewrite !size_terms. split; [exact N|].
    intros us ws. rewrite !coef_nden, D. unfold sg. destruct sign; [reflexivity|]. ring.
  - right. split; [exact ER|]. rewrite !size_terms. destruct H as [(u & SU & IU & H)|H]; [left; exists u; split; [split; assumption|exact H]|right; exact H].
Qed.

Lemma cmp_mapc {C1 C2} (f1 : C1 -> C) (f2 : C2 -> C) (ceq : C1 -> C2 -> bool) (a : series K C1 Tag) (b : series K C2 Tag) : (forall c d, ceq c d = c_eqb CO (f1 c) (f2 d)) ->
  series_cmp_identical_ss KO TO ceq a b = series_cmp_identical_ss KO TO (c_eqb CO) (mapc f1 a) (mapc f2 b).
Proof.
  intros HQ. unfold series_cmp_identical_ss. rewrite !size_terms, !terms_mapc, !map_length. change (s_tag (mapc f1 a)) with (s_tag a). change (s_tag (mapc f2 b)) with (s_tag b).
  destruct (match tag_eqb TO with Some eqb => _ | None => _ end); [reflexivity|]. destruct (negb _); [reflexivity|]. induction (terms a) as [|[k c] l IH]; [reflexivity|]. cbn [map gt fst snd].
  assert (EF : series_find KO (mapc f2 b) k = series_find KO b k).
  { unfold series_find, series_end, mapc. cbn [s_tables]. rewrite map_length. unfold rd. rewrite nth_error_map. destruct (nth_error (s_tables b) _) as [t|]; cbn [option_map bind]; [|reflexivity].
    assert (EP : tbl_position KO (map (gt f2) t) k = tbl_position KO t k).
    { clear. induction t as [|[k' c'] t IH]; [reflexivity|]. cbn [map gt fst snd tbl_position]. rewrite IH. reflexivity. }
    rewrite EP. reflexivity. }
  rewrite EF. destruct (series_find KO b k) as [it| |]; cbn [bind]; try reflexivity.
  assert (EE : series_end (mapc f2 b) = series_end b) by (unfold series_end, mapc; cbn [s_tables]; rewrite map_length; reflexivity). rewrite EE. destruct (it_eqb it (series_end b)); [reflexivity|].
  assert (ED : it_deref (mapc f2 b) it = rmapr (gt f2) (it_deref b it)).
  { unfold it_deref, mapc. cbn [s_tables]. rewrite rd_map. destruct (rd (s_tables b) (fst it)) as [t| |]; cbn [bind rmapr]; try reflexivity. destruct (snd it) as [p|]; [|reflexivity]. apply rd_map. }
  rewrite ED. destruct (it_deref b it) as [e| |]; cbn [bind rmapr gt fst snd]; try reflexivity. rewrite HQ. destruct (negb _); [reflexivity|]. rewrite EE in IH. exact IH.
Qed.

(** C81. x == y: the tags are equal, and so are the converted coefficients.  [ceq] is operator== of the coefficients. *)
Theorem mixed_equality_exact : forall C1 C2 (CO1 : cf_ops C1) (CO2 : cf_ops C2) (PO1 : tbl_policy (K * C1)) (PO2 : tbl_policy (K * C2)) (f1 : C1 -> C) (f2 : C2 -> C) (ceq : C1 -> C2 -> bool)
  (x : series K C1 Tag) (y : series K C2 Tag), cf_laws CO1 -> cf_laws CO2 -> cf_embedding CO1 CO f1 -> cf_embedding CO2 CO f2 -> (forall a b, ceq a b = true <-> f1 a = f2 b) ->
  wf KO KS CO1 x -> wf KO KS CO2 y -> Z.of_nat (len (s_ss x) + len (s_ss y)) <= imax size_t ->
  let out := mix_equal_to KO CO1 CO2 PO1 PO2 TO ceq x y in
  (exists r, out = Ok r /\ mix_not_equal_to KO CO1 CO2 PO1 PO2 TO ceq x y = Ok (negb r) /\
     (r = true <-> tags_equal TO (s_tag x) (s_tag y) /\ forall us ws, covers us x -> covers us y -> f1 (coef KS CO1 us x ws) = f2 (coef KS CO2 us y ws))) \/
  (key_overflow out /\
   ((exists u, union_of (s_ss x) (s_ss y) u /\ (unrep KS u x \/ unrep KS u y)) \/ full (s_log2 x) (series_size x) \/ full (s_log2 y) (series_size y))).
Proof.
  intros C1 C2 CO1 CO2 PO1 PO2 f1 f2 ceq x y CL1 CL2 M1 M2 HQ WX WY SZ out. rewrite !size_terms. unfold mix_not_equal_to. fold out.
  assert (HQ' : forall c d, ceq c d = c_eqb CO (f1 c) (f2 d)).
  { intros c d. destruct (c_eqb CO (f1 c) (f2 d)) eqn:E; [apply HQ, (cl_eqb _ CL); exact E|]. destruct (ceq c d) eqn:E'; [|reflexivity]. apply HQ, (cl_eqb _ CL) in E'. congruence. }
  set (good := fun r : bool => r = true <-> tags_equal TO (s_tag x) (s_tag y) /\ forall us ws, covers us x -> covers us y -> f1 (coef KS CO1 us x ws) = f2 (coef KS CO2 us y ws)).
  enough (H : (exists r, out = Ok r /\ good r) \/ (key_overflow out /\ ((exists u, union_of (s_ss x) (s_ss y) u /\ (unrep KS u x \/ unrep KS u y)) \/ full (s_log2 x) (len (terms x)) \/ full (s_log2 y) (len (terms y))))).
  { destruct H as [(r & E & H)|H]; [left; exists r; rewrite E; split; [reflexivity|]; split; [reflexivity|exact H]|right; exact H]. }
  assert (FIN : forall u (a : series K C1 Tag) (b : series K C2 Tag), union_of (s_ss x) (s_ss y) u -> wf KO KS CO1 a -> wf KO KS CO2 b -> s_ss a = u -> s_ss b = u -> s_tag a = s_tag x -> s_tag b = s_tag y ->
      (forall Q, vden KS CO1 a Q = vden KS CO1 x (fun v => Q (spread (s_ss x) u v))) -> (forall Q, vden KS CO2 b Q = vden KS CO2 y (fun v => Q (spread (s_ss y) u v))) ->
      exists r, series_cmp_identical_ss KO TO ceq a b = Ok r /\ good r).
  { intros u a b [SU IU] WA WB SA SB TA TB DA DB. rewrite (cmp_mapc f1 f2 ceq a b HQ').
    assert (CX' : incl (s_ss x) u) by (intros z Iz; apply IU; auto). assert (CY' : incl (s_ss y) u) by (intros z Iz; apply IU; auto).
    destruct (cmp_ok KO KS CO TO KL CL (mapc f1 a) (mapc f2 b) (wf_mapc KO KS CO CO1 f1 M1 a WA) (wf_mapc KO KS CO CO2 f2 M2 b WB)) as (r & E & H & PM); [cbn [mapc s_ss]; congruence|]. exists r. split; [exact E|].
    cbn [mapc s_tag] in H. rewrite TA, TB in H. split.
    - intros R. split; [apply H; exact R|]. intros us ws _ _.
      rewrite !coef_nden, <- (vden_spread KS CO1 u us x _ CX'), <- (vden_spread KS CO2 u us y _ CY').
      rewrite <- (DA (fun v => vec_eqb (spread u us v) ws)), <- (DB (fun v => vec_eqb (spread u us v) ws)).
      rewrite <- (vden_mapc KS CO CO1 f1 M1), <- (vden_mapc KS CO CO2 f2 M2). unfold vden. cbn [mapc s_ss]. rewrite SA, SB. apply psum_perm; auto.
    - intros [T HC]. apply H. split; [exact T|]. intros ws. rewrite (vden_mapc KS CO CO1 f1 M1), (vden_mapc KS CO CO2 f2 M2), DA, DB.
      apply (HC u ws); split; assumption. }
  unfold out, mix_equal_to. clear out. destruct (ss_eqb (s_ss x) (s_ss y)) eqn:ES.
  - apply ss_eqb_iff in ES. left. apply (FIN (s_ss x)); auto.
    + split; [apply (wf_ss _ _ _ _ WX)|]. intros z. rewrite <- ES. tauto.
    + intros Q. destruct (not_extended KO KS KL CO1 (s_ss x) x WX eq_refl) as [_ D]. apply D.
    + intros Q. destruct (not_extended KO KS KL CO2 (s_ss x) y WY (eq_sym ES)) as [_ D]. apply D.
  - destruct (merge_symbol_sets_exact (s_ss x) (s_ss y) (wf_ss _ _ _ _ WX) (wf_ss _ _ _ _ WY) SZ) as (u & mx & my & EM & SU & IU & IX & IY & MX & MY & _).
    rewrite EM. cbn [bind]. assert (UN : union_of (s_ss x) (s_ss y) u) by (split; auto).
    pose proof (extend_ok KO KS CO1 CO1 PO1 TO KL CL1 (fun c => c) eq_refl (fun _ _ => eq_refl) (s_tag x) true x mx u WX MX IX SU (or_introl eq_refl)) as EX.
    pose proof (extend_ok KO KS CO2 CO2 PO2 TO KL CL2 (fun c => c) eq_refl (fun _ _ => eq_refl) (s_tag y) true y my u WY MY IY SU (or_introl eq_refl)) as EY.
    assert (BX : mx = [] -> s_ss x = u) by (intros ->; exact (eq_trans (eq_sym (insert_nil _ 0)) IX)).
    assert (BY : my = [] -> s_ss y = u) by (intros ->; exact (eq_trans (eq_sym (insert_nil _ 0)) IY)).
    set (ex := extend_to KO CO1 PO1 TO (s_tag x) true (fun c => c) u x mx) in *. set (ey := extend_to KO CO2 PO2 TO (s_tag y) true (fun c => c) u y my) in *.
    assert (ERX : forall f, ex = Throw overflow_error \/ ex = Throw safe_cast_failure -> unrep KS u x \/ full (s_log2 x) (len (terms x)) -> 
      (exists r, bind ex f = Ok r /\ good r) \/ (key_overflow (bind ex f) /\ ((exists u, union_of (s_ss x) (s_ss y) u /\ (unrep KS u x \/ unrep KS u y)) \/ full (s_log2 x) (len (terms x)) \/ full (s_log2 y) (len (terms y))))).
    { intros f E H. right. split; [destruct E as [->| ->]; [left|right]; reflexivity|]. destruct H as [H|H]; [left; exists u; auto|auto]. }
    assert (ERY : forall f, ey = Throw overflow_error \/ ey = Throw safe_cast_failure -> unrep KS u y \/ full (s_log2 y) (len (terms y)) -> 
      (exists r, bind ey f = Ok r /\ good r) \/ (key_overflow (bind ey f) /\ ((exists u, union_of (s_ss x) (s_ss y) u /\ (unrep KS u x \/ unrep KS u y)) \/ full (s_log2 x) (len (terms x)) \/ full (s_log2 y) (len (terms y))))).
    { intros f E H. right. split; [destruct E as [->| ->]; [left|right]; reflexivity|]. destruct H as [H|H]; [left; exists u; auto|auto]. }
    destruct mx as [|p1 mx'], my as [|p2 my']; cbn [map_empty].
    + exfalso. rewrite (proj2 (ss_eqb_iff _ _)) in ES; [discriminate|]. rewrite BX, BY; auto.
    + destruct EY as [(b & Eb & Wb & Sb & Tb & Lb & Db & Nb)|[E H]]; [|exact (ERY _ E H)].
      rewrite Eb. cbn [bind]. left. apply (FIN u); auto. intros Q. apply (not_extended KO KS KL CO1 u x WX (BX eq_refl)).
    + destruct EX as [(a & Ea & Wa & Sa & Ta & La & Da & Na)|[E H]]; [|exact (ERX _ E H)].
      rewrite Ea. cbn [bind]. left. apply (FIN u); auto. intros Q. apply (not_extended KO KS KL CO2 u y WY (BY eq_refl)).
    + destruct EX as [(a & Ea & Wa & Sa & Ta & La & Da & Na)|[E H]]; [|exact (ERX _ E H)].
      rewrite Ea. cbn [bind]. destruct EY as [(b & Eb & Wb & Sb & Tb & Lb & Db & Nb)|[E H]]; [|exact (ERY _ E H)].
      rewrite Eb. cbn [bind]. left. apply (FIN u); auto.
Qed.
End MixS.

(** * C82: power series *)
Section MixP.
Context {K C1 C2 C : Type} (KO : key_ops K) (KS : key_sem K) (CO1 : cf_ops C1) (CO2 : cf_ops C2) (CO : cf_ops C) (PO1 : tbl_policy (K * C1)) (PO2 : tbl_policy (K * C2)) (PO : tbl_policy (K * C)) (tD : ity).
Context (KL : key_laws KO KS) (CL1 : cf_laws CO1) (CL2 : cf_laws CO2) (CL : cf_laws CO) (HT : integral_type tD) (DI : degrees_in KS tD).
Add Ring Cring2 : (cl_ring CO CL).
Notation WF := (wf KO KS CO).
Notation TO := ps_tag_ops.
Notation series := (series K C trunc_t).
Infix "+c" := (c_add CO) (at level 50, left associativity).
Infix "-c" := (c_sub CO) (at level 50, left associativity).
Notation "0c" := (c_zero CO).
Notation coef := (coef KS CO).
Notation exps s k := (ks_exps KS (len (s_ss s)) k).

(** The sum or the difference of two power series whose converted coefficients are vx and vy. *)
Definition ps_sum_of {D1 D2} (sign : bool) (x : SeriesModel.series K D1 trunc_t) (y : SeriesModel.series K D2 trunc_t) (vx vy : symbol_set -> list Z -> C) (out : res series) : Prop :=
  (clash (s_tag x) (s_tag y) -> out = Throw invalid_argument) /\
  (forall t, joint (s_tag x) (s_tag y) t ->
    (exists r, out = Ok r /\ WF r /\ s_tag r = t /\ union_of (s_ss x) (s_ss y) (s_ss r) /\
       (respects KS x -> respects KS y -> respects KS r /\ forall us ws, covers us r ->
          coef us r ws = if within t us ws then (if sign then vx us ws +c vy us ws else vx us ws -c vy us ws) else 0c)) \/
    (key_overflow out /\
     ((exists u, union_of (s_ss x) (s_ss y) u /\ (unrep KS u x \/ unrep KS u y)) \/
      full (s_log2 x) (series_size x + series_size y) \/ full (s_log2 y) (series_size x + series_size y) \/
      exists s, WF s /\ union_of (s_ss x) (s_ss y) (s_ss s) /\ degree_lost KS t s /\ (forall us ws, coef us s ws = if sign then vx us ws +c vy us ws else vx us ws -c vy us ws)))).

Lemma mix_visit_ok {D1 D2} (COX : cf_ops D1) (COY : cf_ops D2) (CLX : cf_laws COX) (CLY : cf_laws COY) g1 g2 (G1 : g1 (c_zero COX) = 0c) (G2 : g2 (c_zero COY) = 0c) sign op
  (x : SeriesModel.series K D1 trunc_t) (y : SeriesModel.series K D2 trunc_t) : wf KO KS COX x -> wf KO KS COY y -> trunc_ok tD (s_tag x) -> trunc_ok tD (s_tag y) ->
  (exists r, op x y = Ok r /\ WF r /\ union_of (s_ss x) (s_ss y) (s_ss r) /\ forall us ws, coef us r ws = if sign : bool then g1 (SeriesSpec.coef KS COX us x ws) +c g2 (SeriesSpec.coef KS COY us y ws) else g1 (SeriesSpec.coef KS COX us x ws) -c g2 (SeriesSpec.coef KS COY us y ws)) \/
    (key_overflow (op x y) /\ ((exists u, union_of (s_ss x) (s_ss y) u /\ (unrep KS u x \/ unrep KS u y)) \/ full (s_log2 x) (series_size x + series_size y) \/ full (s_log2 y) (series_size x + series_size y))) ->
  ps_sum_of sign x y (fun us ws => g1 (SeriesSpec.coef KS COX us x ws)) (fun us ws => g2 (SeriesSpec.coef KS COY us y ws)) (mix_ps_visit KO tD op x y).
Proof.
  intros Wx Wy TX TY OP. set (x' := Series [[]] 0 (s_tag x) [] : series). set (y' := Series [[]] 0 (s_tag y) [] : series). set (op' := fun _ _ : series => op x y).
  assert (EV : mix_ps_visit KO tD op x y = ps_addsub_visit KO tD op' x' y') by reflexivity. rewrite EV. clear EV.
  assert (WO : forall s, op' x' y' = Ok s -> WF s).
  { intros s ES. unfold op' in ES. destruct OP as [(r & A & W & _)|[[A|A] _]]; rewrite A in ES; try discriminate. injection ES as <-. exact W. }
  destruct (visit_ok KO KS CO tD KL HT DI op' x' y' TX TY WO) as [VC VJ]. split; [exact VC|]. intros t J. specialize (VJ t J). change (op' x' y') with (op x y) in VJ. change (s_tag x') with (s_tag x) in VJ. change (s_tag y') with (s_tag y) in VJ.
  destruct OP as [(s & ES & Ws & U & D)|[KO' H]].
  - rewrite ES in VJ. set (val := fun us ws => if sign then g1 (SeriesSpec.coef KS COX us x ws) +c g2 (SeriesSpec.coef KS COY us y ws) else g1 (SeriesSpec.coef KS COX us x ws) -c g2 (SeriesSpec.coef KS COY us y ws)) in *.
    assert (RC : forall us ws, covers us s -> respects KS x -> respects KS y -> s_tag x = s_tag y -> val us ws = if within t us ws then val us ws else 0c).
    { intros us ws [SU IU] RX RY ET. assert (CX : covers us x) by (split; [exact SU|intros z Hz; apply IU, U; auto]). assert (CY : covers us y) by (split; [exact SU|intros z Hz; apply IU, U; auto]).
      assert (t = s_tag x) by (destruct J as [[_ ->]|[[_ ->]|[_ ->]]]; auto). unfold val. rewrite (respects_coef KO KS COX KL CLX x us ws Wx CX RX), (respects_coef KO KS COY KL CLY y us ws Wy CY RY). rewrite <- ET, <- H. destruct (within t us ws); [reflexivity|]. rewrite G1, G2. destruct sign; ring. }
    destruct VJ as [[ET EV]|[(r & EV & WR & SR & TR & LR & FT)|[EV DL]]].
    + left. exists (set_tag s t). split; [exact EV|]. split; [apply set_tag_wf; exact Ws|]. split; [reflexivity|]. split; [exact U|]. intros RX RY.
      assert (CF : forall us ws, covers us s -> coef us (set_tag s t) ws = if within t us ws then val us ws else 0c).
      { intros us ws CV. rewrite coef_tag, D. apply RC; auto. }
      split; [|exact CF]. intros k c I. cbn [s_tag set_tag s_ss] in *. change (terms (set_tag s t)) with (terms s) in I. destruct (within t (s_ss s) (exps s k)) eqn:EW; [reflexivity|]. exfalso.
      assert (CS : covers (s_ss s) s) by (split; [apply (wf_ss _ _ _ _ Ws)|apply incl_refl]). apply (wf_nonzero _ _ _ _ Ws k c I). rewrite <- (coef_term KO KS CO KL CL (s_ss s) s k c Ws CS I). rewrite <- (coef_tag KS CO _ s t), CF by exact CS.
      rewrite spread_self by (try (apply sorted_set_nodup, (wf_ss _ _ _ _ Ws)); apply (kl_len _ _ KL); eapply wf_valid; eauto). rewrite EW. reflexivity.
    + left. exists r. split; [exact EV|]. split; [exact WR|]. split; [exact TR|]. split; [rewrite SR; exact U|]. intros _ _. split; [exact (kept_respects KS t s r SR TR FT)|].
      intros us ws CV. assert (CS : covers us s) by (destruct CV as [A1 A2]; split; [exact A1|rewrite <- SR; exact A2]). rewrite (kept_coef KO KS CO KL CL t us s r ws CS Ws SR FT), D. reflexivity.
    + right. split; [left; exact EV|]. right. right. right. exists s. tauto.
  - right. split; [|tauto]. destruct KO' as [X|X]; rewrite X in VJ; [left|right]; exact VJ.
Qed.

(** C82. Sums and differences of power series. *)
Theorem mixed_ps_add_sub_exact : forall sign f1 f2 (ox : @operand K C trunc_t C1) (oy : @operand K C trunc_t C2) (x : SeriesModel.series K C1 trunc_t) (y : SeriesModel.series K C2 trunc_t),
  operand_of KO CO PO CO1 f1 ox -> operand_of KO CO PO CO2 f2 oy -> wf KO KS CO1 x -> wf KO KS CO2 y -> trunc_ok tD (s_tag x) -> trunc_ok tD (s_tag y) -> Z.of_nat (len (s_ss x) + len (s_ss y)) <= imax size_t ->
  ps_sum_of sign x y (fun us ws => f1 (SeriesSpec.coef KS CO1 us x ws)) (fun us ws => f2 (SeriesSpec.coef KS CO2 us y ws)) (mix_ps_addsub KO CO PO tD sign ox oy x y).
Proof.
  intros sign f1 f2 ox oy x y HX HY Wx Wy TX TY B.
  assert (F1 : f1 (c_zero CO1) = 0c) by (destruct (operand_of_ok KO KS CO PO KL CL CO1 f1 ox HX) as [[Z _ _ _] EQ]; rewrite <- EQ; exact Z).
  assert (F2 : f2 (c_zero CO2) = 0c) by (destruct (operand_of_ok KO KS CO PO KL CL CO2 f2 oy HY) as [[Z _ _ _] EQ]; rewrite <- EQ; exact Z).
  apply (mix_visit_ok CO1 CO2 CL1 CL2 f1 f2 F1 F2 sign); auto.
  destruct (mixed_sum_exact KO KS CO PO TO KL CL C1 C2 CO1 CO2 f1 f2 ox oy sign x y HX HY Wx Wy B) as [(r & A1 & A2 & A3 & _ & A6)|H]; [left; exists r; tauto|right; exact H].
Qed.
(** C82. In place. *)
Theorem mixed_ps_in_place_exact : forall sign f (x : series) (y : SeriesModel.series K C2 trunc_t), f (c_zero CO2) = 0c -> (forall a b, f (c_add CO2 a b) = f a +c f b) ->
  WF x -> wf KO KS CO2 y -> trunc_ok tD (s_tag x) -> trunc_ok tD (s_tag y) -> Z.of_nat (len (s_ss x) + len (s_ss y)) <= imax size_t ->
  ps_sum_of sign x y (fun us ws => coef us x ws) (fun us ws => f (SeriesSpec.coef KS CO2 us y ws)) (mix_ps_in_place KO CO PO CO2 PO2 tD sign f x y).
Proof.
  intros sign f x y F0 FA Wx Wy TX TY B. apply (mix_visit_ok CO CO2 CL CL2 (fun c => c) f eq_refl F0 sign); auto.
  destruct (mixed_in_place_exact KO KS CO PO TO KL CL C2 CO2 PO2 f sign x y CL2 F0 FA Wx Wy B) as [(r & A1 & A2 & A3 & _ & _ & A6)|H]; [left; exists r; tauto|right; exact H].
Qed.

(** C82. Products of power series. *)
Context (HP : promote tD = tD).
Theorem mixed_ps_mul_exact : forall mul12 mul21 E12 E21 f1 f2 (x : SeriesModel.series K C1 trunc_t) (y : SeriesModel.series K C2 trunc_t), mix_env_ok KO KS E12 -> mix_env_ok KO KS E21 ->
  cf_embedding CO1 CO f1 -> cf_embedding CO2 CO f2 -> mixed_mul CO mul12 mul21 f1 f2 -> wf KO KS CO1 x -> wf KO KS CO2 y -> trunc_ok tD (s_tag x) -> trunc_ok tD (s_tag y) ->
  Z.of_nat (len (s_ss x) + len (s_ss y)) <= imax size_t ->
  let out := mix_ps_mul KO CO1 CO2 CO PO1 PO2 PO tD mul12 mul21 E12 E21 x y in
  (clash (s_tag x) (s_tag y) -> out = Throw invalid_argument) /\
  (forall t, joint (s_tag x) (s_tag y) t -> (forall u, union_of (s_ss x) (s_ss y) u -> t <> no_truncation -> sums_fit KS tD (counted t) u) ->
    exists u, union_of (s_ss x) (s_ss y) u /\
    ((exists r, out = Ok r /\ WF r /\ s_ss r = u /\ s_tag r = t /\ ~ mixed_unrepresentable KS u x y /\ respects KS r /\
        forall us ws, sorted_set us -> incl u us -> coef us r ws = if within t us ws then mixed_prod_coef KS CO (mm_mul mul12) us x y ws else 0c) \/
     (key_overflow out /\
      (mixed_unrepresentable KS u x y \/ mixed_capacity x y \/ (t <> no_truncation /\ (degree_unrep KS (counted t) u x \/ degree_unrep KS (counted t) u y)))))).
Proof.
  intros mul12 mul21 E12 E21 f1 f2 x y O1 O2 M1 M2 HM Wx Wy TX TY B out.
  set (lm := mix_mul_limited KO CO1 CO2 CO PO1 PO2 PO tD mul12 mul21 E12 E21).
  assert (MJ : forall t, joint (s_tag x) (s_tag y) t -> out = lm t x y).
  { intros t J. unfold out, mix_ps_mul. fold lm. destruct J as [[EQ ->]|[[EQ ->]|[EQ ->]]].
    - rewrite <- EQ. destruct (s_tag x) as [|d|d s]; [reflexivity| |]; rewrite Z.eqb_refl, ?(proj2 (ss_eqb_iff s s) eq_refl); reflexivity.
    - rewrite EQ. destruct (s_tag y); reflexivity.
    - rewrite EQ. destruct (s_tag x); reflexivity. }
  split.
  - intros (A & A' & N). unfold out, mix_ps_mul. destruct (s_tag x) as [|d|d s], (s_tag y) as [|e|e v]; try congruence.
    + destruct (Z.eqb_spec d e); [subst; congruence|reflexivity].
    + destruct (Z.eqb_spec d e); [|reflexivity]. cbn [andb]. destruct (ss_eqb s v) eqn:EU; [apply ss_eqb_iff in EU; subst; congruence|reflexivity].
  - intros t J SF. rewrite (MJ t J). clear MJ out.
    assert (TK : trunc_ok tD t) by (destruct J as [[_ ->]|[[_ ->]|[_ ->]]]; auto).
    assert (RESP : forall u (r : series), WF r -> s_ss r = u -> s_tag r = t -> sorted_set u -> (forall us ws, sorted_set us -> incl u us -> coef us r ws = if within t us ws then mixed_prod_coef KS CO (mm_mul mul12) us x y ws else 0c) -> respects KS r).
    { intros u r WR SR TR SU DR k c I. rewrite TR. destruct (within t (s_ss r) (exps r k)) eqn:EW; [reflexivity|]. exfalso. subst u.
      assert (CS : covers (s_ss r) r) by (split; [exact SU|apply incl_refl]). apply (wf_nonzero _ _ _ _ WR k c I). rewrite <- (coef_term KO KS CO KL CL (s_ss r) r k c WR CS I). rewrite DR by (auto; apply incl_refl).
      rewrite spread_self by (try (apply sorted_set_nodup; exact SU); apply (kl_len _ _ KL); eapply wf_valid; eauto). rewrite EW. reflexivity. }
    destruct t as [|d|d s]; unfold lm; cbn [mix_mul_limited].
    + destruct (mixed_mul_exact KO KS CO1 CO2 CO mul12 mul21 PO1 PO2 PO TO KL CL1 CL2 CL E12 E21 f1 f2 x y O1 O2 M1 M2 HM Wx Wy B) as (u & U & H). exists u. split; [exact U|]. destruct H as [(r & ER & WR & SR & TR & NU & DR)|[KV H]].
      * left. exists r. split; [exact ER|]. split; [exact WR|]. split; [exact SR|]. split; [exact TR|]. split; [exact NU|]. split; [apply (RESP u); auto; eapply union_sorted; eauto|exact DR].
      * right. split; [exact KV|]. tauto.
    + destruct (mixed_truncated_mul_exact KO KS CO1 CO2 CO mul12 mul21 PO1 PO2 PO TO KL CL1 CL2 CL E12 E21 f1 f2 all_symbols d (tr_total KO tD tD d) x y O1 O2 M1 M2 HM Wx Wy B) as (u & U & H).
      { intros u U. apply (total_exact KO KS KL); auto; [apply limit_self; auto|]. apply (SF u U). discriminate. }
      exists u. split; [exact U|]. destruct H as [(r & ER & WR & SR & TR & NU & DR)|[KV H]].
      * left. exists (set_tag r (total_truncation d)). rewrite ER. split; [reflexivity|]. assert (W' := set_tag_wf KO KS CO r (total_truncation d) WR). split; [exact W'|]. split; [exact SR|]. split; [reflexivity|]. split; [exact NU|].
        split; [apply (RESP u); auto; eapply union_sorted; eauto|exact DR].
      * right. split; [destruct KV as [->| ->]; [left|right]; reflexivity|]. destruct H as [H|[H|[H|H]]]; auto; right; right; (split; [discriminate|auto]).
    + destruct TK as [TK SS]. destruct (mixed_truncated_mul_exact KO KS CO1 CO2 CO mul12 mul21 PO1 PO2 PO TO KL CL1 CL2 CL E12 E21 f1 f2 (one_of s) d (tr_partial KO tD tD d s) x y O1 O2 M1 M2 HM Wx Wy B) as (u & U & H).
      { intros u U. apply (partial_exact KO KS KL); auto; [apply limit_self; auto|eapply union_sorted; eauto|]. apply (SF u U). discriminate. }
      exists u. split; [exact U|]. destruct H as [(r & ER & WR & SR & TR & NU & DR)|[KV H]].
      * left. exists (set_tag r (partial_truncation d s)). rewrite ER. split; [reflexivity|]. assert (W' := set_tag_wf KO KS CO r (partial_truncation d s) WR). split; [exact W'|]. split; [exact SR|]. split; [reflexivity|]. split; [exact NU|].
        split; [apply (RESP u); auto; eapply union_sorted; eauto|exact DR].
      * right. split; [destruct KV as [->| ->]; [left|right]; reflexivity|]. destruct H as [H|[H|[H|H]]]; auto; right; right; (split; [discriminate|auto]).
Qed.
End MixP.

(** * Non-vacuity: integers and rationals *)
Lemma Qz_operand {Tag} : @operand_of Z Qc Tag exK Qc_cf (po_front _) Z Z_cf Qz (op_conv exK Qc_cf (po_front _) Qz).
Proof. apply operand_conv; [exact Z_cf_laws|exact Qz_embedding]. Qed.
Lemma Qc_operand {Tag} : @operand_of Z Qc Tag exK Qc_cf (po_front _) Qc Qc_cf (fun c => c) op_same.
Proof. apply operand_same. Qed.
Definition zq_sum (sign : bool) : res (series Z Qc Z) := series_addsub exK Qc_cf (po_front _) Z_tag sign (op_conv exK Qc_cf (po_front _) Qz) op_same ex_y exq.
Definition zq_in_place : res (series Z Qc Z) := series_in_place_addsub exK Qc_cf (po_front _) Z_cf exP Z_tag false Qz exq false ex_y.
(** (5 b + 2 c^3 - 7 b^-1) -/+ (1/2 a b^2 - 3 a + 2/3 b). *)
Example ex_mixed_sum : (wf exK exS Z_cf ex_y /\ wf exK exS Qc_cf exq /\ Z.of_nat (len (s_ss ex_y) + len (s_ss exq)) <= imax size_t) /\
  exists r q, zq_sum false = Ok r /\ s_ss r = ["a"; "b"; "c"]%string /\ series_size r = 5%nat /\ coef exS Qc_cf ["a"; "b"; "c"]%string r [0; 1; 0] = qf 13 3 /\
    zq_in_place = Ok q /\ coef exS Qc_cf ["a"; "b"; "c"]%string q [0; 1; 0] = qf (-13) 3.
Proof.
  pose proof ex_y_wf as (WY & _). pose proof exq_wf as (WQ & _). split; [split; [exact WY|]; split; [exact WQ|vm_compute; discriminate]|].
  exists (get (series_default Z_tag) (zq_sum false)), (get (series_default Z_tag) zq_in_place). split; [apply get_ok; vm_compute; reflexivity|]. split; [vm_compute; reflexivity|]. split; [vm_compute; reflexivity|].
  split; [apply (cl_eqb _ Qc_cf_laws); vm_compute; reflexivity|]. split; [apply get_ok; vm_compute; reflexivity|apply (cl_eqb _ Qc_cf_laws); vm_compute; reflexivity].
Qed.
Definition zq_eq (a : Z) (b : Qc) : bool := c_eqb Qc_cf (Qz a) b.
Lemma zq_eq_ok a b : zq_eq a b = true <-> Qz a = b. Proof. apply (cl_eqb _ Qc_cf_laws). Qed.
(** ex_y is equal to its own conversion, over more symbols, and not to exq. *)
Definition ex_yq : series Z Qc Z := get (series_default Z_tag) (r <- series_convert exK Qc_cf (po_front _) Qz 0 ex_y ;; add_symbols exK Qc_cf (po_front _) Z_tag r ["d"]%string).
Example ex_mixed_equal : mix_equal_to exK Z_cf Qc_cf exP (po_front _) Z_tag zq_eq ex_y ex_yq = Ok true /\ s_ss ex_yq <> s_ss ex_y /\ series_size ex_yq = 3%nat /\
  mix_equal_to exK Z_cf Qc_cf exP (po_front _) Z_tag zq_eq ex_y exq = Ok false /\ mix_not_equal_to exK Z_cf Qc_cf exP (po_front _) Z_tag zq_eq ex_y exq = Ok true.
Proof. split; [vm_compute; reflexivity|]. split; [vm_compute; discriminate|]. do 2 (split; [vm_compute; reflexivity|]). vm_compute; reflexivity. Qed.

Definition mixPE (C1 C2 : Type) (mt : bool) (lg : nat) : mix_env Z C1 C2 trunc_t :=
  {| mx_check := me_check (exE false 0); mx_sort := ex_perm; mx_mt := fun _ _ => mt; mx_log2 := fun _ _ => lg |}.
Lemma mixPE_ok C1 C2 mt lg : mix_env_ok exK exS (mixPE C1 C2 mt lg).
Proof. split; [intros ss r1 r2 V1 V2; cbn [mixPE mx_check]; apply (eo_check _ _ _ (exE_ok false 0)); auto|apply ex_perm_ok]. Qed.
Notation zq_ps_mul mt lg := (mix_ps_mul exK Z_cf Qc_cf Qc_cf exP (po_front _) (po_front _) (kd_ty kd_int64) zq qz (mixPE Z Qc mt lg) (mixPE Qc Z mt lg)).
(** (4 a - b) (1/2 a b^2 - 3 a + 2/3 b + O(4)), without the terms of degree 4. *)
Lemma ps_zq_args : wf exK exS Z_cf ps_y /\ wf exK exS Qc_cf psq /\ trunc_ok (kd_ty kd_int64) (s_tag ps_y) /\ trunc_ok (kd_ty kd_int64) (s_tag psq) /\ joint (s_tag ps_y) (s_tag psq) (total_truncation 3) /\
  integral_type (kd_ty kd_int64) /\ degrees_in exS (kd_ty kd_int64) /\ promote (kd_ty kd_int64) = kd_ty kd_int64 /\ (forall sel u, sums_fit exS (kd_ty kd_int64) sel u).
Proof.
  assert (HD : packable kd_int64) by (right; right; left; reflexivity). destruct (kd_type_ok kd_int64 HD) as [T1 T2].
  destruct ps_y_wf as (W & _ & _ & T). destruct psq_wf as (WQ & TQ). rewrite T, TQ. split; [exact W|]. split; [exact WQ|]. split; [exact I|]. split; [split; vm_compute; congruence|]. split; [right; left; split; reflexivity|].
  split; [exact T1|]. split; [apply pm_degrees_in; exact HD|]. split; [exact T2|]. intros sel u. apply pm_sums_fit. exact HD.
Qed.
Example ex_mixed_ps_mul : forall mt lg, (mt, lg) = (false, 0%nat) \/ (mt, lg) = (true, 3%nat) ->
  exists r, zq_ps_mul mt lg ps_y psq = Ok r /\ s_tag r = total_truncation 3 /\ series_size r = 3%nat /\ coef exS Qc_cf ["a"; "b"]%string r [1; 1] = qf 17 3.
Proof.
  intros mt lg H. exists (get (series_default ps_tag_ops) (zq_ps_mul mt lg ps_y psq)).
  split; [apply get_ok; destruct H as [[= -> ->]|[= -> ->]]; vm_compute; reflexivity|]. split; [destruct H as [[= -> ->]|[= -> ->]]; vm_compute; reflexivity|].
  split; [destruct H as [[= -> ->]|[= -> ->]]; vm_compute; reflexivity|]. destruct H as [[= -> ->]|[= -> ->]]; apply (cl_eqb _ Qc_cf_laws); vm_compute; reflexivity.
Qed.
Definition zq_ps_sum (t : trunc_t) : res (series Z Qc trunc_t) := mix_ps_addsub exK Qc_cf (po_front _) (kd_ty kd_int64) true (op_conv exK Qc_cf (po_front _) Qz) op_same (set_tag ps_y t) psq.
Definition zq_ps_in_place : res (series Z Qc trunc_t) := mix_ps_in_place exK Qc_cf (po_front _) Z_cf exP (kd_ty kd_int64) true Qz psq ps_x.
Example ex_mixed_ps_sum : (exists r, zq_ps_sum no_truncation = Ok r /\ s_tag r = total_truncation 3 /\ coef exS Qc_cf ["a"; "b"]%string r [0; 1] = qf (-1) 3) /\
  zq_ps_sum (total_truncation 2) = Throw invalid_argument /\ zq_ps_in_place = Throw invalid_argument.
Proof.
  split; [|split; vm_compute; reflexivity]. exists (get (series_default ps_tag_ops) (zq_ps_sum no_truncation)). split; [apply get_ok; vm_compute; reflexivity|]. split; [vm_compute; reflexivity|].
  apply (cl_eqb _ Qc_cf_laws); vm_compute; reflexivity.
Qed.

Print Assumptions mixed_sum_exact.
Print Assumptions mixed_in_place_exact.
Print Assumptions mixed_equality_exact.
Print Assumptions mixed_ps_add_sub_exact.
Print Assumptions mixed_ps_in_place_exact.
Print Assumptions mixed_ps_mul_exact.
