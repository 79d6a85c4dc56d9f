(** Property C62, power series. *)
From Coq Require Import ZArith List Bool String Arith Sorted Permutation Lia.
From Verif Require Import Base KpackModel KpackSpec KpackProofs P_Kpack IntModel IntSpec IntProofs SymModel SymSpec SymProofs P_Sym PMonModel PMonSpec PMonProofs KeyOps
  SeriesModel SeriesModel2 SeriesSpec SeriesProofs SeriesProofs2 SeriesProofs3 SeriesProofs4 SeriesProofs5 SeriesProofs6 CfInst P_Series P_Series2 PolyModel PolyModel2 PolySpec PolyProofs8 SerModel SerSpec P_Ser
  PSModel PSSpec PSProofs P_PS P_Inv ExnModel ExnProofs ExnProofs2 P_Exn ExnModel2.
Import ListNotations.
Open Scope Z_scope.
Open Scope res_scope.
Local Notation len := List.length.

Section PX.
Context {K C : Type} (KO : key_ops K) (KS : key_sem K) (CO : cf_ops C) (PO : tbl_policy (K * C)) (tD : ity).
Context (KL : key_laws KO KS) (CL : cf_laws CO) (HT : integral_type tD) (DI : degrees_in KS tD).
Notation series := (series K C trunc_t).
Notation store := (@store K C trunc_t).
Notation WF := (wf KO KS CO).
Notation INV := (invariants KO CO).
Notation TO := ps_tag_ops.
Notation bounded x y := (Z.of_nat (len (s_ss x) + len (s_ss y)) <= imax size_t).

Lemma kept_ub d (s : series) : WF s -> forall e, In e (terms s) -> kept_degree KO tD d (s_ss s) e <> UB.
Proof.
  intros W [k c] J. unfold kept_degree. cbn [fst]. destruct (kl_degree _ _ KL k (s_ss s) (wf_valid _ _ _ _ W k c J)) as [A B].
  destruct (k_degree KO k (s_ss s)); [discriminate|discriminate|]. exfalso. assert (X : ~ ks_deg_fits KS (ks_exps KS (len (s_ss s)) k)) by (intros F; specialize (A F); discriminate). specialize (B X). discriminate.
Qed.
Lemma kept_p_ub d z (s : series) : sorted_set z -> WF s -> forall e, In e (terms s) -> kept_p_degree KO tD d z (s_ss s) e <> UB.
Proof.
  intros SZ W [k c] J. unfold kept_p_degree. cbn [fst].
  destruct (kl_p_degree _ _ KL k (s_ss s) (ss_intersect_idx z (s_ss s)) (wf_valid _ _ _ _ W k c J)) as [A B]; [apply (ss_intersect_idx_exact z (s_ss s) SZ (wf_ss _ _ _ _ W))|].
  destruct (k_p_degree KO k _ (s_ss s)); [discriminate|discriminate|]. exfalso. match type of B with (?P -> _) => assert (X : P) by (intros F; specialize (A F); discriminate) end. specialize (B X). discriminate.
Qed.

Definition cut (s s' : series) : Prop := WF s' /\ incl (terms s') (terms s) /\ same_meta s s'.
Lemma cut_refl (s : series) : WF s -> cut s s. Proof. intros W. split; [exact W|]. split; [apply incl_refl|repeat split]. Qed.
Lemma degree_inv d (s : series) o s' : WF s -> x_truncate_degree KO tD d s o s' -> (o = Some tt /\ truncate_degree KO tD tD d s = Ok s') \/ (o = None /\ cut s s').
Proof. intros W H. apply get_inv in H. apply (filter_inv KO KS CO KL) in H; [exact H|apply kept_ub; exact W|exact W]. Qed.
Lemma p_degree_inv d z (s : series) o s' : sorted_set z -> WF s -> x_truncate_p_degree KO tD d z s o s' -> (o = Some tt /\ truncate_p_degree KO tD tD d z s = Ok s') \/ (o = None /\ cut s s').
Proof. intros SZ W H. apply get_inv in H. apply call_inv in H as [H|(-> & ->)]; [|right; split; [reflexivity|apply cut_refl; exact W]]. apply (filter_inv KO KS CO KL) in H; [exact H|apply kept_p_ub; auto|exact W]. Qed.
Lemma truncate_inv (s : series) o s' : WF s -> trunc_ok tD (s_tag s) -> x_ps_truncate KO tD s o s' -> (o = Some tt /\ ps_truncate KO tD s = Ok s') \/ (o = None /\ cut s s').
Proof.
  intros W T H. unfold x_ps_truncate in H. apply get_inv in H. unfold ps_truncate. destruct (s_tag s) as [|d|d z].
  - destruct H as [-> ->]. left. auto.
  - apply degree_inv in H; auto.
  - apply p_degree_inv in H; auto. apply T.
Qed.
Lemma set_tag_inv t (s : series) o s' : x_set_tag t s o s' -> (o = Some tt /\ s' = set_tag s t) \/ (o = None /\ s' = s).
Proof. intros H. apply call_inv in H as [H|H]; auto. Qed.
Lemma clear_is (s : series) : WF s -> WF (series_clear TO s) /\ terms (series_clear TO s) = [] /\ s_ss (series_clear TO s) = [] /\ s_tag (series_clear TO s) = no_truncation.
Proof. intros W. destruct (clear_ok KO KS CO s [] no_truncation W ltac:(constructor)) as [A B]. auto. Qed.

(** set_truncation: if the limit is not a value of the degree type nothing happens; if an exception is thrown afterwards the series is cleared, so it never breaks its truncation. *)
Theorem set_truncation_exceptions : forall tV d (s : series) o s', WF s -> limit_value tV d -> x_set_truncation KO tD tV d s o s' ->
  match o with
  | Some _ => set_truncation KO tD tV d s = (Ok tt, s')
  | None => (~ has_value tD d /\ s' = s) \/ (has_value tD d /\ terms s' = [] /\ s_ss s' = [] /\ s_tag s' = no_truncation)
  end /\ WF s' /\ INV s'.
Proof.
  intros tV d s o s' W LV H. unfold x_set_truncation in H. unfold set_truncation.
  assert (GO : forall P : Prop, P -> WF s' -> P /\ WF s' /\ INV s') by (intros P p W'; split; [exact p|]; split; [exact W'|apply (wf_invariants KO KS CO KL); exact W']).
  destruct (cast_ok tD HT tV d LV) as [[HV E]|[HV E]]; rewrite E in *; apply res_inv in H; try discriminate.
  - destruct H as [(v & X & H)|(_ & _ & e & X)]; [|discriminate]. injection X as <-. destruct H as [([] & -> & H)|(-> & s1 & H & ->)].
    + destruct H as [(u & s2 & H1 & H2)|(X & _)]; [|discriminate]. apply degree_inv in H1 as [(X & E1)|(X & _)]; try discriminate; auto. apply set_tag_inv in H2 as [(_ & ->)|(X' & _)]; [|discriminate].
      apply GO; [rewrite E1; reflexivity|apply set_tag_wf]. eapply (filter_res_wf KO KS CO PO KL); eauto.
    + assert (W1 : WF s1). { destruct H as [(u & s2 & H1 & H2)|(_ & H1)]; apply degree_inv in H1 as [(X & E1)|(X & H1)]; try discriminate; auto; [|apply H1]. apply set_tag_inv in H2 as [(X' & _)|(_ & ->)]; [discriminate|]. eapply (filter_res_wf KO KS CO PO KL); eauto. }
      destruct (clear_is s1 W1) as (A & B & D & F). apply GO; auto.
  - destruct H as [(v & X & _)|(-> & -> & _)]; [discriminate|]. apply GO; auto.
Qed.
Theorem set_truncation_p_exceptions : forall tV d z (s : series) o s', WF s -> sorted_set z -> limit_value tV d -> x_set_truncation_p KO tD tV d z s o s' ->
  match o with
  | Some _ => set_truncation_p KO tD tV d z s = (Ok tt, s')
  | None => (~ has_value tD d /\ s' = s) \/ (has_value tD d /\ terms s' = [] /\ s_ss s' = [] /\ s_tag s' = no_truncation)
  end /\ WF s' /\ INV s'.
Proof.
  intros tV d z s o s' W SZ LV H. unfold x_set_truncation_p in H. unfold set_truncation_p.
  assert (GO : forall P : Prop, P -> WF s' -> P /\ WF s' /\ INV s') by (intros P p W'; split; [exact p|]; split; [exact W'|apply (wf_invariants KO KS CO KL); exact W']).
  destruct (cast_ok tD HT tV d LV) as [[HV E]|[HV E]]; rewrite E in *; apply res_inv in H; try discriminate.
  - destruct H as [(v & X & H)|(_ & _ & e & X)]; [|discriminate]. injection X as <-. destruct H as [([] & -> & H)|(-> & s1 & H & ->)].
    + destruct H as [(u & s2 & H1 & H2)|(X & _)]; [|discriminate]. apply p_degree_inv in H1 as [(X & E1)|(X & _)]; try discriminate; auto. apply set_tag_inv in H2 as [(_ & ->)|(X' & _)]; [|discriminate].
      apply GO; [rewrite E1; reflexivity|apply set_tag_wf]. eapply (filter_res_wf KO KS CO PO KL); eauto.
    + assert (W1 : WF s1). { destruct H as [(u & s2 & H1 & H2)|(_ & H1)]; apply p_degree_inv in H1 as [(X & E1)|(X & H1)]; try discriminate; auto; [|apply H1]. apply set_tag_inv in H2 as [(X' & _)|(_ & ->)]; [discriminate|]. eapply (filter_res_wf KO KS CO PO KL); eauto. }
      destruct (clear_is s1 W1) as (A & B & D & F). apply GO; auto.
  - destruct H as [(v & X & _)|(-> & -> & _)]; [discriminate|]. apply GO; auto.
Qed.

(** The visit of the truncations, around an operation [xop] which writes its result at [dst]. *)
Definition visited (xop : M store unit) (dst : loc) (x y : series) (op : series -> series -> res series) (h : store) (o : option unit) (h' : store) : Prop :=
  (o = Some tt /\ ps_addsub_visit KO tD op x y = Ok (h' dst) /\ WF (h' dst) /\ exists h1, xop h (Some tt) h1 /\ forall l, l <> dst -> h' l = h1 l) \/
  (o = None /\ h' = h) \/
  (o = None /\ xop h None h') \/
  (o = None /\ exists h1, xop h (Some tt) h1 /\ (forall l, l <> dst -> h' l = h1 l) /\ WF (h' dst) /\ incl (terms (h' dst)) (terms (h1 dst)) /\ s_ss (h' dst) = s_ss (h1 dst) /\
     (s_tag (h' dst) = s_tag (h1 dst) \/ joint (s_tag x) (s_tag y) (s_tag (h' dst)))).
Lemma visit_inv (xop : M store unit) (dst : loc) (x y : series) (op : series -> series -> res series) (h : store) o h' :
  trunc_ok tD (s_tag x) -> trunc_ok tD (s_tag y) ->
  (forall o1 h1, xop h o1 h1 -> o1 = Some tt -> op x y = Ok (h1 dst) /\ WF (h1 dst)) ->
  (match s_tag x, s_tag y with
  | no_truncation, no_truncation => mbind xop (fun _ => on dst (x_set_tag (s_tag x)))
  | total_truncation d, total_truncation e => if negb (d =? e) then mraise else mbind xop (fun _ => on dst (x_set_tag (s_tag x)))
  | partial_truncation d s, partial_truncation e u => if negb ((d =? e) && ss_eqb s u) then mraise else mbind xop (fun _ => on dst (x_set_tag (s_tag x)))
  | _, no_truncation => mbind xop (fun _ => mbind (on dst (x_set_tag (s_tag x))) (fun _ => on dst (x_ps_truncate KO tD)))
  | no_truncation, _ => mbind xop (fun _ => mbind (on dst (x_set_tag (s_tag y))) (fun _ => on dst (x_ps_truncate KO tD)))
  | _, _ => mraise
  end) h o h' -> visited xop dst x y op h o h'.
Proof.
  intros TX TY OP H.
  assert (SAME : forall t, (forall r, op x y = Ok r -> ps_addsub_visit KO tD op x y = Ok (set_tag r t)) -> mbind xop (fun _ => on dst (x_set_tag t)) h o h' -> visited xop dst x y op h o h').
  { intros t VT [([] & h1 & H1 & H2)|(-> & H1)]; [|right; right; auto]. destruct (OP _ _ H1 eq_refl) as [E1 W1]. destruct H2 as (s' & H2 & ->). apply set_tag_inv in H2 as [(-> & ->)|(-> & ->)].
    - left. rewrite upd_same. split; [reflexivity|]. split; [apply VT; exact E1|]. split; [apply set_tag_wf; exact W1|]. exists h1. split; [exact H1|]. intros l N. apply upd_other. auto.
    - right. right. right. split; [reflexivity|]. exists h1. rewrite upd_same. split; [exact H1|]. split; [intros l N; apply upd_other; auto|]. split; [exact W1|]. split; [apply incl_refl|]. auto. }
  assert (ADOPT : forall t, trunc_ok tD t -> joint (s_tag x) (s_tag y) t -> (forall r, op x y = Ok r -> ps_addsub_visit KO tD op x y = ps_truncate KO tD (set_tag r t)) ->
    mbind xop (fun _ => mbind (on dst (x_set_tag t)) (fun _ => on dst (x_ps_truncate KO tD))) h o h' -> visited xop dst x y op h o h').
  { intros t TK J VT [([] & h1 & H1 & H2)|(-> & H1)]; [|right; right; auto]. destruct (OP _ _ H1 eq_refl) as [E1 W1]. destruct H2 as [([] & h2 & (s2 & H2 & ->) & (s3 & H3 & ->))|(-> & (s2 & H2 & ->))]; apply set_tag_inv in H2 as [(X & ->)|(X & ->)]; try discriminate.
    - rewrite upd_same in H3. apply truncate_inv in H3 as [(-> & E3)|(-> & W3 & I3 & M3 & M4 & M5)]; [| |apply set_tag_wf; exact W1|exact TK].
      + left. rewrite upd_same. split; [reflexivity|]. split; [rewrite (VT _ E1); exact E3|]. split.
        * destruct (truncate_ok KO KS CO tD KL HT DI t (set_tag (h1 dst) t) (set_tag_wf KO KS CO _ t W1) TK eq_refl) as [(r & ER & WR & _)|[ER _]]; rewrite E3 in ER; [injection ER as ->; exact WR|discriminate].
        * exists h1. split; [exact H1|]. intros l N. rewrite !upd_other; auto.
      + right. right. right. split; [reflexivity|]. exists h1. rewrite upd_same. split; [exact H1|]. split; [intros l N; rewrite !upd_other; auto|]. split; [exact W3|]. split; [exact I3|]. split; [exact M3|]. right. rewrite M4. exact J.
    - right. right. right. split; [reflexivity|]. exists h1. rewrite upd_same. split; [exact H1|]. split; [intros l N; apply upd_other; auto|]. split; [exact W1|]. split; [apply incl_refl|]. auto. }
  assert (RAISE : mraise h o h' -> visited xop dst x y op h o h') by (intros [-> ->]; right; left; auto).
  unfold ps_addsub_visit in SAME, ADOPT. unfold joint in ADOPT.
  destruct (s_tag x) as [|d|d s], (s_tag y) as [|e|e u]; auto.
  - apply SAME in H; auto. intros r ->. reflexivity.
  - apply ADOPT in H; auto. intros r ->. reflexivity.
  - apply ADOPT in H; auto. intros r ->. reflexivity.
  - apply ADOPT in H; auto. intros r ->. reflexivity.
  - destruct (negb (d =? e)); auto. apply SAME in H; auto. intros r ->. reflexivity.
  - apply ADOPT in H; auto. intros r ->. reflexivity.
  - destruct (negb _); auto. apply SAME in H; auto. intros r ->. reflexivity.
Qed.

(** x += y and x -= y.  After an exception the invariants hold, but x may have lost its truncation or break it: see the refuted statements below. *)
Theorem ps_in_place_exceptions : forall sign y rx ry h o h', y = LX \/ y = LY -> WF (h LX) -> WF (h LY) -> trunc_ok tD (s_tag (h LX)) -> trunc_ok tD (s_tag (h y)) -> bounded (h LX) (h y) ->
  x_ps_in_place_addsub KO CO PO tD sign y rx ry h o h' ->
  match o with
  | Some _ => ps_in_place_addsub KO CO PO tD sign (h LX) (loc_eqb LX y) (h y) = Ok (h' LX)
  | None => incl (s_ss (h' LX)) (s_ss (h LX) ++ s_ss (h y))
  end /\ WF (h' LX) /\ WF (h' LY) /\ INV (h' LX) /\ INV (h' LY) /\
  (h' LY = h LY \/ (y = LY /\ ry = true /\ terms (h' LY) = [] /\ s_ss (h' LY) = [])).
Proof.
  intros sign y rx ry h o h' HY WX WY TX TY B H. unfold x_ps_in_place_addsub in H. apply rd_inv in H. apply rd_inv in H.
  assert (IO : forall o1 h1, x_in_place_addsub KO CO PO TO sign y rx ry h o1 h1 -> in_place_outcome KO KS CO PO TO sign y rx ry h o1 h1) by (intros o1 h1 X; apply (in_place_exceptions KO KS CO PO TO KL CL); auto).
  assert (GO : forall P : Prop, P -> WF (h' LX) -> WF (h' LY) -> (h' LY = h LY \/ (y = LY /\ ry = true /\ terms (h' LY) = [] /\ s_ss (h' LY) = [])) ->
    P /\ WF (h' LX) /\ WF (h' LY) /\ INV (h' LX) /\ INV (h' LY) /\ (h' LY = h LY \/ (y = LY /\ ry = true /\ terms (h' LY) = [] /\ s_ss (h' LY) = []))).
  { intros P p W1 W2 U. split; [exact p|]. split; [exact W1|]. split; [exact W2|]. split; [apply (wf_invariants KO KS CO KL); exact W1|]. split; [apply (wf_invariants KO KS CO KL); exact W2|exact U]. }
  assert (SS : forall r, series_in_place_addsub KO CO PO CO PO TO sign (fun c => c) (h LX) (loc_eqb LX y) (h y) = Ok r -> incl (s_ss r) (s_ss (h LX) ++ s_ss (h y))).
  { intros r E. assert (Wy : WF (h y)) by (destruct HY as [->| ->]; auto).
    destruct (in_place_exact KO KS CO PO TO KL CL sign (h LX) (loc_eqb LX y) (h y) WX Wy) as [(r0 & E' & _ & S & _)|[[E'|E'] _]]; [intros X; apply loc_eqb_iff in X; subst; reflexivity|exact B| | |]; rewrite E in E'; try discriminate.
    injection E' as <-. intros z J. apply in_or_app, S, J. }
  apply (visit_inv (x_in_place_addsub KO CO PO TO sign y rx ry) LX (h LX) (h y) (fun a b => series_in_place_addsub KO CO PO CO PO TO sign (fun c => c) a (loc_eqb LX y) b)) in H; auto.
  - destruct H as [(-> & E & W & h1 & H1 & F)|[(-> & ->)|[(-> & H1)|(-> & h1 & H1 & F & W & I & S & _)]]].
    + destruct (IO _ _ H1) as (_ & _ & WL & U). pose proof (F LY ltac:(discriminate)) as FY. rewrite <- FY in *. apply GO; auto.
    + apply GO; auto. apply incl_appl, incl_refl.
    + destruct (IO _ _ H1) as (A & W1 & WL & U). apply GO; auto.
    + destruct (IO _ _ H1) as (A & _ & WL & U). pose proof (F LY ltac:(discriminate)) as FY. rewrite <- FY in *. apply GO; auto. rewrite S. apply SS. exact A.
  - intros o1 h1 X ->. destruct (IO _ _ X) as (A & W1 & _). auto.
Qed.

(** x += c and x -= c for a scalar c. *)
Theorem ps_in_place_scalar_exceptions : forall sign (s : series) c o s', WF s -> trunc_ok tD (s_tag s) -> ks_fits KS (repeat 0 (len (s_ss s))) -> x_ps_in_place_scalar KO CO PO tD sign c s o s' ->
  match o with
  | Some _ => ps_addsub_scalar KO CO PO tD sign s c = Ok s'
  | None => s_ss s' = s_ss s /\ s_tag s' = s_tag s
  end /\ WF s' /\ INV s'.
Proof.
  intros sign s c o s' W T F H. assert (GO : forall P : Prop, P -> WF s' -> P /\ WF s' /\ INV s') by (intros P p W'; split; [exact p|]; split; [exact W'|apply (wf_invariants KO KS CO KL); exact W']).
  destruct H as [([] & s1 & H1 & H2)|(-> & H1)]; apply (in_place_scalar_exceptions KO KS CO PO KL CL) in H1 as (A & W1 & _); auto.
  - assert (M : s_ss s1 = s_ss s /\ s_tag s1 = s_tag s). { destruct (scalar_addsub_exact KO KS CO PO KL CL sign s c W F _ false eq_refl) as [(r & E & _ & S1 & S2 & _)|[E _]]; rewrite A in E; [|discriminate]. injection E as <-. auto. }
    destruct M as [M1 M2]. apply truncate_inv in H2 as [(-> & E)|(-> & W2 & I & M3 & M4 & _)]; auto; [| |rewrite M2; exact T].
    + apply GO; [unfold ps_addsub_scalar; rewrite A; exact E|]. destruct (truncate_ok KO KS CO tD KL HT DI (s_tag s1) s1 W1 ltac:(rewrite M2; exact T) eq_refl) as [(r & ER & WR & _)|[ER _]]; rewrite E in ER; [injection ER as ->; exact WR|discriminate].
    + apply GO; auto. split; congruence.
  - destruct A as (_ & A1 & A2). apply GO; auto.
Qed.

(** x + y and x - y: the operands are as after the sum of series. *)
Theorem ps_addsub_exceptions : forall sign y rx ry h o h', y = LX \/ y = LY -> WF (h LX) -> WF (h LY) -> trunc_ok tD (s_tag (h LX)) -> trunc_ok tD (s_tag (h y)) -> bounded (h LX) (h y) ->
  x_ps_addsub KO CO PO tD sign y rx ry h o h' ->
  match o with
  | Some _ => (if sign then ps_add KO CO PO tD (h LX) (h y) else ps_sub KO CO PO tD (h LX) (h y)) = Ok (h' LR)
  | None => True
  end /\
  (if loc_eqb LX y then after TO (rx || ry) (h LX) (h' LX) /\ h' LY = h LY else after TO rx (h LX) (h' LX) /\ after TO ry (h LY) (h' LY)).
Proof.
  intros sign y rx ry h o h' HY WX WY TX TY B H. unfold x_ps_addsub in H. apply rd_inv in H. apply rd_inv in H.
  assert (IO : forall o1 h1, x_addsub KO CO PO TO sign y rx ry h o1 h1 -> addsub_outcome KO CO PO TO sign y rx ry h o1 h1) by (intros o1 h1 X; apply (addsub_exceptions KO KS CO PO TO KL CL); auto).
  assert (Wy : WF (h y)) by (destruct HY as [->| ->]; auto).
  apply (visit_inv (x_addsub KO CO PO TO sign y rx ry) LR (h LX) (h y) (if sign then series_add KO CO PO TO else series_sub KO CO PO TO)) in H; auto.
  - destruct H as [(-> & E & W & h1 & H1 & F)|[(-> & ->)|[(-> & H1)|(-> & h1 & H1 & F & _)]]].
    + destruct (IO _ _ H1) as (_ & A). rewrite (F LX), (F LY) by discriminate. split; [|exact A]. destruct sign; exact E.
    + split; [exact I|]. destruct (loc_eqb LX y); split; try reflexivity; apply after_refl.
    + split; [exact I|]. apply (IO _ _ H1).
    + split; [exact I|]. rewrite (F LX), (F LY) by discriminate. apply (IO _ _ H1).
  - intros o1 h1 X ->. destruct (IO _ _ X) as (A & _). split; [destruct sign; exact A|].
    destruct (add_sub_exact KO KS CO PO TO KL CL sign (h LX) (h y) WX Wy B) as [(r & E & W & _)|[[E|E] _]]; rewrite A in E; try discriminate. injection E as ->. exact W.
Qed.
End PX.
