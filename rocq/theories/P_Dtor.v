(** Property C104: what an interrupted sum or difference destroys is valid. *)
From Coq Require Import ZArith List Bool String Arith Sorted Permutation Lia Ring Ring_theory.
From Verif Require Import Base KpackModel KpackSpec KpackProofs P_Kpack IntModel IntSpec IntProofs P_Int SymModel SymSpec SymProofs P_Sym PMonModel PMonSpec PMonProofs PMonProofs2 P_PMon DPMModel DPMSpec DPMProofs DPMProofs2 DPMProofs3 P_DPM KeyOps KeyInst
  SeriesModel SeriesModel2 SeriesSpec SeriesProofs SeriesProofs2 SeriesProofs3 SeriesProofs4 SeriesProofs5 SeriesProofs6 CfInst P_Series P_Series2 PolyModel PolyModel2 PolySpec PolyProofs8 P_Poly P_Poly2 SerModel SerSpec P_Ser PSModel PSSpec PSProofs P_PS P_PS4 P_Inv
  ExnModel ExnModel2 ExnProofs ExnProofs2 P_Exn P_Exn2 P_Exn3 ExnProofs3 ExnProofs6.
Import ListNotations.
Open Scope Z_scope.
Open Scope res_scope.
Local Notation len := List.length.

Section PD.
Context {K C Tag : Type} (KO : key_ops K) (KS : key_sem K) (CO : cf_ops C) (PO : tbl_policy (K * C)) (TO : tag_ops Tag).
Context (KL : key_laws KO KS) (CL : cf_laws CO).
Notation series := (series K C Tag).
Notation store := (@store K C Tag).
Notation WF := (wf KO KS CO).
Notation INV := (invariants KO CO).
Notation bounded x y := (Z.of_nat (len (s_ss x) + len (s_ss y)) <= imax size_t).

(** The checks of the destructor (series.hpp:853-899, debug builds) pass: the object was moved from (its vector of tables is empty), or the invariants hold ([INV], C24), the number of segments is within its limit and no key is zero. *)
Definition destructible (s : series) : Prop := s_tables s = [] \/ (INV s /\ (s_log2 s <= max_log2_size)%nat /\ forall k c, In (k, c) (terms s) -> k_is_zero KO k (s_ss s) = false).
Lemma wf_destructible (s : series) : WF s -> destructible s.
Proof. intros W. right. split; [apply (wf_invariants KO KS CO KL); exact W|]. split; [apply (wf_log2 _ _ _ _ W)|]. intros k c J. apply (kl_zero _ _ KL). Qed.
(** An object an interrupted call leaves: untouched (or not constructed yet), moved from, or valid. *)
Notation left_ok h h' l := (h' l = h l \/ s_tables (h' l) = [] \/ WF (h' l)).
Lemma ok_trans (h h1 h2 : store) l : left_ok h h1 l -> left_ok h1 h2 l -> left_ok h h2 l.
Proof. intros A [->|B]; [exact A|right; exact B]. Qed.
Lemma ok_wf (h h' : store) l : WF (h l) -> left_ok h h' l -> s_tables (h' l) = [] \/ WF (h' l).
Proof. intros W [->|H]; auto. Qed.
Lemma ok_after rv (h h' : store) l : WF (h l) -> after TO rv (h l) (h' l) -> left_ok h h' l.
Proof. intros W [A|(_ & [A|A])]; [auto|right; left; rewrite A; reflexivity|right; right; rewrite A; apply (used_wf KO KS CO TO true _ W)]. Qed.

Lemma merger_left sign lhs rl rhs rr (h : store) o h' : lhs <> LR -> rhs <> LR -> WF (h lhs) -> WF (h rhs) -> s_ss (h rhs) = s_ss (h lhs) ->
  x_term_merger KO CO PO TO sign lhs rl rhs rr h o h' -> forall l, left_ok h h' l.
Proof.
  intros NL NR WL WR ES H. pose proof H as H'. apply (merger_out KO KS CO PO TO KL CL) in H' as (F & A & R); auto.
  assert (LRok : left_ok h h' LR).
  { destruct R as [(_ & _ & W)| ->]; [auto|]. unfold x_term_merger in H.
    assert (MAIN : forall h1, h1 LR = h lhs -> h1 rhs = h rhs -> mfinally (x_merge_loop KO CO PO sign LR rhs rr) (clearer TO rr rhs) h1 None h' -> WF (h' LR)).
    { intros h1 E1 E2 (h2 & H1 & HC). assert (V : forall k c, In (k, c) (terms (h rhs)) -> ks_valid KS (len (s_ss (h lhs))) k) by (intros k c J; rewrite <- ES; apply (wf_valid _ _ _ _ WR k c J)).
      apply (merge_loop_inv KO KS CO PO KL CL) in H1 as [F1 R]; [|auto|rewrite E1; exact WL|rewrite E1, E2; exact V].
      destruct (clearer_inv TO LR rhs rr h1 h2 h' (not_eq_sym NR) F1 HC) as (_ & C2 & _). rewrite C2.
      destruct R as [(X & _)|(_ & l1 & e & l2 & s1 & _ & _ & W1 & L)]; [discriminate|]. apply (lost_wf KO KS CO s1 _ W1 L). }
    destruct (rl && negb (loc_eqb lhs rhs)) eqn:EB.
    - apply mv_inv in H. right. right. apply MAIN in H; [exact H|rewrite upd_other, upd_same; auto|rewrite !upd_other; auto].
      apply andb_true_iff in EB as [_ EB]. apply negb_true_iff in EB. intros ->. rewrite (proj2 (loc_eqb_iff rhs rhs) eq_refl) in EB. discriminate.
    - apply cp_inv in H as [H|(_ & ->)]; [|auto]. right. right. apply MAIN in H; [exact H|apply upd_same|apply upd_other; auto]. }
  intros l. destruct (loc_eqb l LR) eqn:E0; [apply loc_eqb_iff in E0; subst l; exact LRok|].
  assert (NE : l <> LR) by (intros ->; discriminate). clear E0.
  destruct (loc_eqb l lhs) eqn:E1; [apply loc_eqb_iff in E1; subst l|destruct (loc_eqb l rhs) eqn:E2; [apply loc_eqb_iff in E2; subst l|]].
  - destruct (loc_eqb lhs rhs); [apply (ok_after rr); auto|apply (ok_after rl); tauto].
  - destruct (loc_eqb lhs rhs) eqn:E; [apply loc_eqb_iff in E; subst; apply (ok_after rr); auto|apply (ok_after rr); tauto].
  - left. apply F; auto; intros ->; [rewrite (proj2 (loc_eqb_iff lhs lhs) eq_refl) in E1|rewrite (proj2 (loc_eqb_iff rhs rhs) eq_refl) in E2]; discriminate.
Qed.

(** The only exception: the negation which ends a difference whose second operand is longer (series.hpp:2466-2476), if a throwing negation leaves a zero. *)
Definition half_negated (sign : bool) (o : option unit) (s : series) : Prop := sign = false /\ o = None /\ exists k, In (k, c_zero CO) (terms s).
Lemma merge_left sign a ra b rb (h : store) o h' : a <> LR -> b <> LR -> WF (h a) -> WF (h b) -> s_ss (h b) = s_ss (h a) ->
  x_merge_same KO CO PO TO sign a ra b rb h o h' -> forall l, left_ok h h' l \/ (l = LR /\ half_negated sign o (h' LR)).
Proof.
  intros NA NB WA WB ES H. unfold x_merge_same in H. apply rd_inv in H. apply rd_inv in H.
  destruct (series_size (h b) <=? series_size (h a))%nat; [intros l; left; eapply merger_left; [| | | | |exact H]; auto|].
  destruct sign; [intros l; left; eapply merger_left; [| | | | |exact H]; auto|].
  destruct H as [([] & h1 & H1 & H2)|(-> & H1)]; [|intros l; left; eapply merger_left; [| | | | |exact H1]; auto].
  pose proof (merger_left false b rb a ra h (Some tt) h1 NB NA WB WA (eq_sym ES) H1) as L1. apply (merger_out KO KS CO PO TO KL CL) in H1 as (_ & _ & R); auto. destruct R as [(_ & _ & WR)|X]; [|discriminate].
  destruct H2 as (s' & H2 & ->). intros l. destruct (loc_eqb l LR) eqn:E0.
  - apply loc_eqb_iff in E0. subst l. rewrite upd_same. pose proof H2 as H3. apply (negate_exceptions KO KS CO KL) in H3; [|exact WR]. destruct o as [[]|].
    + left. right. right. rewrite H3. apply (negate_exact KO KS CO CL (h1 LR) WR).
    + destruct H3 as (_ & _ & H3). destruct (existsb (fun e => c_is_zero CO (snd e)) (terms s')) eqn:EX.
      * right. split; [reflexivity|]. split; [reflexivity|]. split; [reflexivity|]. apply existsb_exists in EX as ([k c] & J & Z). apply (cl_zero _ CL) in Z. cbn [snd] in Z. subst c. eauto.
      * left. right. right. apply H3. intros k c J Z. assert (X : existsb (fun e => c_is_zero CO (snd e)) (terms s') = true); [|congruence]. apply existsb_exists. exists (k, c). split; [exact J|]. apply (cl_zero _ CL). exact Z.
  - left. rewrite upd_other by (intros <-; discriminate). apply L1.
Qed.

Lemma ext_left to from rv u m (h : store) o h' : to <> from -> WF (h from) -> ins_map_ok (len (s_ss (h from))) m -> insert_all (ins_at m) 0 (s_ss (h from)) = u -> sorted_set u ->
  x_extend_to KO CO PO TO to from rv u m h o h' -> forall l, left_ok h h' l.
Proof.
  intros N W IM EU SU H l. pose proof H as H'. apply (ext_out KO KS CO PO TO KL CL) in H'; auto. destruct H' as (F & WF' & _ & R).
  destruct (loc_eqb l to) eqn:E1; [apply loc_eqb_iff in E1; subst l|destruct (loc_eqb l from) eqn:E2; [apply loc_eqb_iff in E2; subst l; auto|]].
  - destruct R as [(_ & _ & W' & _)| ->]; [auto|]. destruct (ext_state KO KS CO PO TO KL CL to from rv u m h h' N W IM EU SU H); auto.
  - left. apply F; intros ->; [rewrite (proj2 (loc_eqb_iff to to) eq_refl) in E1|rewrite (proj2 (loc_eqb_iff from from) eq_refl) in E2]; discriminate.
Qed.


Lemma ok_refl (h : store) l : left_ok h h l. Proof. auto. Qed.
(** A new object of the program text's temporaries: whatever was in [to] before. *)
Lemma merge_after sign a ra b rb (h h1 : store) o h' : (forall l, left_ok h h1 l) -> a <> LR -> b <> LR -> WF (h1 a) -> WF (h1 b) -> s_ss (h1 b) = s_ss (h1 a) ->
  x_merge_same KO CO PO TO sign a ra b rb h1 o h' -> forall l, left_ok h h' l \/ (l = LR /\ half_negated sign o (h' LR)).
Proof. intros L NA NB WA WB ES H l. destruct (merge_left sign a ra b rb h1 o h' NA NB WA WB ES H l) as [X|X]; [left; apply (ok_trans h h1 h' l (L l) X)|auto]. Qed.

Lemma addsub_left sign y rx ry h o h' : y = LX \/ y = LY -> WF (h LX) -> WF (h LY) -> bounded (h LX) (h y) ->
  x_addsub KO CO PO TO sign y rx ry h o h' -> forall l, left_ok h h' l \/ (l = LR /\ half_negated sign o (h' LR)).
Proof.
  intros HY WX WY B H.
  assert (Wy : WF (h y)) by (destruct HY as [->| ->]; auto).
  unfold x_addsub in H. apply rd_inv in H. apply rd_inv in H. destruct (ss_eqb (s_ss (h LX)) (s_ss (h y))) eqn:ES.
  - apply ss_eqb_iff in ES. apply (merge_left sign LX rx y ry h o h'); auto; [discriminate|destruct HY as [->| ->]; discriminate].
  - assert (y = LY) as ->. { destruct HY as [->| ->]; auto. rewrite (proj2 (ss_eqb_iff _ _) eq_refl) in ES. discriminate. } 
    destruct (merge_symbol_sets_exact (s_ss (h LX)) (s_ss (h LY)) (wf_ss _ _ _ _ WX) (wf_ss _ _ _ _ WY) B) as (u & mx & my & EM & SU & IU & IX & IY & MX & MY & _).
    rewrite EM in *. apply call_inv in H as [H|(-> & ->)]; [|auto].
    apply res_inv in H; [|discriminate]. destruct H as [(m & E & H)|(_ & _ & e & E)]; [|discriminate]. injection E as <-.
    assert (BX : mx = [] -> s_ss (h LX) = u) by (intros ->; exact (eq_trans (eq_sym (insert_nil _ 0)) IX)).
    assert (BY : my = [] -> s_ss (h LY) = u) by (intros ->; exact (eq_trans (eq_sym (insert_nil _ 0)) IY)).
    assert (EXT : forall to from rv m (h0 : store) o1 h1, to <> from -> WF (h0 from) -> ins_map_ok (len (s_ss (h0 from))) m -> insert_all (ins_at m) 0 (s_ss (h0 from)) = u -> x_extend_to KO CO PO TO to from rv u m h0 o1 h1 ->
      (forall l, left_ok h0 h1 l) /\ (forall l, l <> to -> l <> from -> h1 l = h0 l) /\ (o1 = Some tt -> WF (h1 to) /\ s_ss (h1 to) = u) /\ WF (h1 from)).
    { intros to from rv m h0 o1 h1 N W IM EU X. split; [exact (ext_left to from rv u m h0 o1 h1 N W IM EU SU X)|]. apply (ext_out KO KS CO PO TO KL CL) in X as (F & WU & _ & R); auto. split; [exact F|]. split; [|exact WU].
      intros ->. destruct R as [(_ & _ & W1 & S1 & _)|X]; [auto|discriminate]. }
    assert (BOTH : (x_extend_to KO CO PO TO LA LX rx u mx ;;; x_extend_to KO CO PO TO LB LY ry u my ;;; x_merge_same KO CO PO TO sign LA true LB true) h o h' ->
      forall l, left_ok h h' l \/ (l = LR /\ half_negated sign o (h' LR))).
    { clear H. intros [([] & h1 & H1 & H2)|(-> & H1)]; [|apply EXT in H1 as (L1 & _); auto; discriminate].
      apply EXT in H1 as (L1 & F1 & S1 & W1); auto; [|discriminate]. destruct (S1 eq_refl) as (WA & SA). clear S1. pose proof (F1 LY ltac:(discriminate) ltac:(discriminate)) as Y1.
      destruct H2 as [([] & h2 & H2 & H3)|(-> & H2)]; (apply EXT in H2 as (L2 & F2 & S2 & W2); [|discriminate|rewrite Y1; auto|rewrite Y1; auto|rewrite Y1; auto]).
      - destruct (S2 eq_refl) as (WB & SB). pose proof (F2 LA ltac:(discriminate) ltac:(discriminate)) as A2.
        apply (merge_after sign LA true LB true h h2 o h'); auto; try discriminate; [intros l; apply (ok_trans h h1 h2 l (L1 l) (L2 l))|rewrite A2; exact WA|congruence].
      - intros l. left. apply (ok_trans h h1 h' l (L1 l) (L2 l)). }
    destruct (map_empty mx) eqn:EX, (map_empty my) eqn:EY.
    + exact (BOTH H).
    + assert (SX : s_ss (h LX) = u) by (destruct mx; [auto|discriminate]).
      destruct H as [([] & h1 & H1 & H2)|(-> & H1)]; apply EXT in H1 as (L1 & F1 & S1 & W1); auto; try discriminate.
      destruct (S1 eq_refl) as (WB & SB). pose proof (F1 LX ltac:(discriminate) ltac:(discriminate)) as X1.
      apply (merge_after sign LX rx LB true h h1 o h'); auto; try discriminate; [rewrite X1; exact WX|congruence].
    + assert (SY : s_ss (h LY) = u) by (destruct my; [auto|discriminate]).
      destruct H as [([] & h1 & H1 & H2)|(-> & H1)]; apply EXT in H1 as (L1 & F1 & S1 & W1); auto; try discriminate.
      destruct (S1 eq_refl) as (WA & SA). pose proof (F1 LY ltac:(discriminate) ltac:(discriminate)) as Y1.
      apply (merge_after sign LA true LY ry h h1 o h'); auto; try discriminate; [rewrite Y1; exact WY|congruence].
    + exact (BOTH H).
Qed.

(** ** C104 *)
Theorem addsub_destroys : forall sign y rx ry h o h', y = LX \/ y = LY -> WF (h LX) -> WF (h LY) -> bounded (h LX) (h y) ->
  x_addsub KO CO PO TO sign y rx ry h o h' -> forall l, h' l = h l \/ destructible (h' l) \/ (l = LR /\ half_negated sign o (h' LR)).
Proof.
  intros sign y rx ry h o h' HY WX WY B H l. destruct (addsub_left sign y rx ry h o h' HY WX WY B H l) as [[X|[X|X]]|X]; auto.
  - right. left. left. exact X.
  - right. left. apply wf_destructible. exact X.
Qed.

Lemma same_left sign rhs rv (h : store) o h' : LX <> rhs -> WF (h LX) -> WF (h rhs) -> s_ss (h rhs) = s_ss (h LX) -> x_in_place_same KO CO PO TO sign LX rhs rv h o h' -> forall l, left_ok h h' l.
Proof.
  intros N WX WR ES H l. apply (same_out KO KS CO PO TO KL CL) in H as (U & F & W & _); auto. destruct (loc_eqb l LX) eqn:E1; [apply loc_eqb_iff in E1; subst l; auto|].
  destruct (loc_eqb l rhs) eqn:E2; [apply loc_eqb_iff in E2; subst l; right; right; rewrite U; apply (used_wf KO KS CO TO); exact WR|].
  left. apply F; intros ->; [discriminate|rewrite (proj2 (loc_eqb_iff rhs rhs) eq_refl) in E2; discriminate].
Qed.
Lemma mv_left (h : store) : WF (h LA) -> forall l, left_ok h (upd (upd h LX (h LA)) LA (moved_from (h LA))) l.
Proof.
  intros W l. destruct l; [right; right; rewrite upd_other, upd_same by discriminate; exact W|left; rewrite !upd_other by discriminate; reflexivity|right; left; rewrite upd_same; reflexivity|left; rewrite !upd_other by discriminate; reflexivity..].
Qed.
Theorem in_place_destroys : forall sign y rx ry h o h', y = LX \/ y = LY -> WF (h LX) -> WF (h LY) -> bounded (h LX) (h y) ->
  x_in_place_addsub KO CO PO TO sign y rx ry h o h' -> forall l, h' l = h l \/ destructible (h' l).
Proof.
  intros sign y rx ry h o h' HY WX WY B H.
  assert (MAIN : forall l, left_ok h h' l); [|intros l; destruct (MAIN l) as [X|[X|X]]; [auto|right; left; exact X|right; apply wf_destructible; exact X]].
  assert (Wy : WF (h y)) by (destruct HY as [->| ->]; auto).
  unfold x_in_place_addsub in H. apply rd_inv in H. apply rd_inv in H. destruct (ss_eqb (s_ss (h LX)) (s_ss (h y))) eqn:ES.
  - apply ss_eqb_iff in ES. destruct HY as [->| ->]; cbn [loc_eqb] in *; [|apply (same_left sign LY ry h o h'); auto; discriminate].
    apply cp_inv in H as [H|(-> & ->)]; [|auto]. intros l. apply (ok_trans h (upd h LB (h LX)) h' l); [|apply (same_left sign LB true (upd h LB (h LX)) o h'); auto; discriminate].
    destruct l; try (left; rewrite upd_other by discriminate; reflexivity). right. right. rewrite upd_same. exact WX.
  - assert (y = LY) as ->. { destruct HY as [->| ->]; auto. rewrite (proj2 (ss_eqb_iff _ _) eq_refl) in ES. discriminate. }
    destruct (merge_symbol_sets_exact (s_ss (h LX)) (s_ss (h LY)) (wf_ss _ _ _ _ WX) (wf_ss _ _ _ _ WY) B) as (u & mx & my & EM & SU & IU & IX & IY & MX & MY & _).
    rewrite EM in *. apply call_inv in H as [H|(-> & ->)]; [|auto].
    apply res_inv in H; [|discriminate]. destruct H as [(m & E & H)|(_ & _ & e & E)]; [|discriminate]. injection E as <-.
    assert (BX : mx = [] -> s_ss (h LX) = u) by (intros ->; exact (eq_trans (eq_sym (insert_nil _ 0)) IX)).
    assert (BY : my = [] -> s_ss (h LY) = u) by (intros ->; exact (eq_trans (eq_sym (insert_nil _ 0)) IY)).
    assert (EXT : forall to from rv m (h0 : store) o1 h1, to <> from -> WF (h0 from) -> ins_map_ok (len (s_ss (h0 from))) m -> insert_all (ins_at m) 0 (s_ss (h0 from)) = u -> x_extend_to KO CO PO TO to from rv u m h0 o1 h1 ->
      (forall l, left_ok h0 h1 l) /\ (forall l, l <> to -> l <> from -> h1 l = h0 l) /\ (o1 = Some tt -> WF (h1 to) /\ s_ss (h1 to) = u) /\ WF (h1 from)).
    { intros to from rv m h0 o1 h1 N W IM EU X. split; [exact (ext_left to from rv u m h0 o1 h1 N W IM EU SU X)|]. apply (ext_out KO KS CO PO TO KL CL) in X as (F & WU & _ & R); auto. split; [exact F|]. split; [|exact WU].
      intros ->. destruct R as [(_ & _ & W1 & S1 & _)|X]; [auto|discriminate]. }
    destruct (map_empty mx) eqn:EX, (map_empty my) eqn:EY.
    + destruct H as [_ ->]. intros l. auto.
    + assert (SX : s_ss (h LX) = u) by (destruct mx; [auto|discriminate]).
      destruct H as [([] & h1 & H1 & H2)|(-> & H1)]; apply EXT in H1 as (L1 & F1 & S1 & W1); auto; try discriminate.
      destruct (S1 eq_refl) as (WB & SB). pose proof (F1 LX ltac:(discriminate) ltac:(discriminate)) as X1.
      intros l. apply (ok_trans h h1 h' l (L1 l)). apply (same_left sign LB true h1 o h'); auto; try discriminate; rewrite ?X1; auto; congruence.
    + assert (SY : s_ss (h LY) = u) by (destruct my; [auto|discriminate]).
      destruct H as [([] & h1 & H1 & H2)|(-> & H1)]; apply EXT in H1 as (L1 & F1 & S1 & W1); auto; try discriminate.
      destruct (S1 eq_refl) as (WA & SA). pose proof (F1 LY ltac:(discriminate) ltac:(discriminate)) as Y1.
      apply mv_inv in H2. set (h2 := upd (upd h1 LX (h1 LA)) LA (moved_from (h1 LA))) in *. assert (X2 : h2 LX = h1 LA) by (unfold h2; rewrite upd_other, upd_same by discriminate; reflexivity). assert (Y2 : h2 LY = h1 LY) by (unfold h2; rewrite !upd_other by discriminate; reflexivity).
      intros l. apply (ok_trans h h1 h' l (L1 l)). apply (ok_trans h1 h2 h' l (mv_left h1 WA l)). apply (same_left sign LY ry h2 o h'); auto; try discriminate; rewrite ?X2, ?Y2, ?Y1; auto; congruence.
    + destruct H as [([] & h1 & H1 & H2)|(-> & H1)]; [|apply EXT in H1 as (L1 & _); auto; discriminate].
      apply EXT in H1 as (L1 & F1 & S1 & W1); auto; [|discriminate]. destruct (S1 eq_refl) as (WA & SA). clear S1. pose proof (F1 LY ltac:(discriminate) ltac:(discriminate)) as Y1.
      destruct H2 as [([] & h2 & H2 & H3)|(-> & H2)]; (apply EXT in H2 as (L2 & F2 & S2 & W2); [|discriminate|rewrite Y1; auto|rewrite Y1; auto|rewrite Y1; auto]).
      * destruct (S2 eq_refl) as (WB & SB). pose proof (F2 LA ltac:(discriminate) ltac:(discriminate)) as A2.
        apply mv_inv in H3. set (h3 := upd (upd h2 LX (h2 LA)) LA (moved_from (h2 LA))) in *. assert (X3 : h3 LX = h2 LA) by (unfold h3; rewrite upd_other, upd_same by discriminate; reflexivity). assert (B3 : h3 LB = h2 LB) by (unfold h3; rewrite !upd_other by discriminate; reflexivity).
        intros l. apply (ok_trans h h1 h' l (L1 l)). apply (ok_trans h1 h2 h' l (L2 l)). apply (ok_trans h2 h3 h' l); [apply mv_left; rewrite A2; exact WA|].
        apply (same_left sign LB true h3 o h'); auto; try discriminate; rewrite ?X3, ?B3, ?A2; auto; congruence.
      * intros l. apply (ok_trans h h1 h' l (L1 l) (L2 l)).
Qed.

(** Whatever happened inside the tables, a cleared object is as a clear object of before. *)
Lemma tables_shape (m : nat -> M (table K C) unit) : forall l (s : series) o s', (forall i, In i l -> (i < len (s_tables s))%nat) -> mfor l (fun i => on_table i (m i)) s o s' ->
  len (s_tables s') = len (s_tables s) /\ s_log2 s' = s_log2 s.
Proof.
  assert (ONE : forall i (s : series) o s', (i < len (s_tables s))%nat -> on_table i (m i) s o s' -> len (s_tables s') = len (s_tables s) /\ s_log2 s' = s_log2 s).
  { intros i s o s' L H. unfold on_table in H. destruct (nth_error (s_tables s) i) eqn:E; [|apply nth_error_None in E; lia]. destruct H as (t' & _ & ->). split; [|reflexivity].
    unfold put_table, set_tables. cbn [s_tables]. rewrite app_length. cbn [len]. rewrite firstn_length, skipn_length. lia. }
  induction l as [|i l IH]; intros s o s' L H; cbn [mfor] in H.
  - destruct H as [_ ->]. auto.
  - destruct H as [([] & s1 & H1 & H2)|(_ & H1)]; apply ONE in H1 as (A & B); [|apply L; left; reflexivity| |apply L; left; reflexivity]; [|auto].
    apply IH in H2 as (A2 & B2); [split; congruence|]. intros j J. rewrite A. apply L. right. exact J.
Qed.
Lemma clear_shape (s s' : series) : len (s_tables s') = len (s_tables s) -> s_log2 s' = s_log2 s -> series_clear TO s' = series_clear TO s.
Proof.
  intros A B. unfold series_clear. rewrite B. f_equal. revert A. generalize (s_tables s) (s_tables s'). intros l l'. revert l. induction l' as [|a l' IH]; intros [|b l] A; try discriminate; [reflexivity|]. cbn [map]. f_equal. apply IH. cbn [len] in A. lia.
Qed.
(** x * c and x *= c for a scalar c. *)
Theorem scalar_mul_destroys : forall rx c h o h', WF (h LX) -> x_scalar_mul KO CO TO rx c h o h' -> forall l, h' l = h l \/ destructible (h' l).
Proof.
  intros rx c h o h' W H.
  assert (MAIN : forall l, left_ok h h' l); [|intros l; destruct (MAIN l) as [X|[X|X]]; [auto|right; left; exact X|right; apply wf_destructible; exact X]].
  pose proof (scalar_mul_exceptions KO KS CO TO KL rx c h o h' W H) as (R & _ & _). pose proof (scalar_mul_exact KO KS CO KL CL (h LX) c W) as (WM & _).
  unfold x_scalar_mul in H. apply rd_inv in H. apply call_inv in H as [H|(-> & ->)]; [|auto].
  destruct (series_empty (h LX) || c_is_zero CO c).
  - apply call_inv in H as [H|(-> & ->)]; [|auto]. destruct H as [-> ->]. intros l. destruct (loc_eqb l LR) eqn:EL; [apply loc_eqb_iff in EL; subst l; right; right; rewrite R; exact WM|]. left. apply upd_other. intros <-. discriminate.
  - assert (MAIN : forall h1, (forall l, l <> LR -> left_ok h h1 l) -> on LR (mtry (mbind mget (fun s : series => mfor (seq 0 (len (s_tables s))) (fun i => on_table i (mbind mget (fun t => mbind (mfor t (fun e => mbind (modify KO (fst e) (fun x => c_mul CO x c)) (fun _ => mcall)))
            (fun _ => mbind mget (fun t2 => mfor (filter (fun e => c_is_zero CO (snd e)) t2) (fun e => erase KO (fst e)))))))) ) (series_clear TO)) h1 o h' -> h1 LR = h LX -> forall l, left_ok h h' l).
    { intros h1 L (s' & HT & ->) E1 l. destruct (loc_eqb l LR) eqn:EL; [apply loc_eqb_iff in EL; subst l; rewrite upd_same|rewrite upd_other by (intros <-; discriminate); apply L; intros ->; discriminate].
      destruct o as [[]|]; [rewrite upd_same in R; right; right; rewrite R; exact WM|]. destruct HT as [(a & X & _)|(_ & s1 & HT & ->)]; [discriminate|]. right. right. destruct HT as [(a & s2 & (E & ->) & HT)|(_ & X & _)]; [|discriminate]. injection E as ->.
      apply tables_shape in HT as (A & B); [|intros i J; apply in_seq in J; lia]. rewrite E1 in A, B. rewrite (clear_shape (h LX) s1 A B). apply (used_wf KO KS CO TO true _ W). }
    destruct rx.
    + apply mv_inv in H. refine (MAIN _ _ H _); [|transitivity (upd h LR (h LX) LR); [apply upd_other; discriminate|apply upd_same]]. intros l N. destruct (loc_eqb l LX) eqn:EL; [apply loc_eqb_iff in EL; subst l; right; left; rewrite upd_same; reflexivity|].
      left. rewrite !upd_other; auto; intros <-; discriminate.
    + apply cp_inv in H as [H|(-> & ->)]; [|auto]. refine (MAIN _ _ H _); [|apply upd_same]. intros l N. left. apply upd_other. auto.
Qed.
Theorem in_place_scalar_mul_destroys : forall rx c h o h', WF (h LX) -> x_in_place_scalar_mul KO CO TO rx c h o h' -> forall l, h' l = h l \/ destructible (h' l).
Proof.
  intros rx c h o h' W [([] & h1 & H1 & H2)|(-> & H1)]; [|apply (scalar_mul_destroys rx c h None h' W H1)]. pose proof (scalar_mul_destroys rx c h (Some tt) h1 W H1) as D.
  pose proof (scalar_mul_exact KO KS CO KL CL (h LX) c W) as (WM & _). apply (scalar_mul_exceptions KO KS CO TO KL) in H1 as (R & _ & _); [|exact W]. destruct H2 as [_ ->].
  intros l. destruct (loc_eqb l LR) eqn:E1; [apply loc_eqb_iff in E1; subst l; right; left; rewrite upd_same; reflexivity|]. rewrite upd_other by (intros <-; discriminate).
  destruct (loc_eqb l LX) eqn:E2; [apply loc_eqb_iff in E2; subst l; right; rewrite upd_same, R; apply wf_destructible; exact WM|]. rewrite upd_other by (intros <-; discriminate). apply D.
Qed.
End PD.

(** ** Power series *)
Section PS.
Context {K C : Type} (KO : key_ops K) (KS : key_sem K) (CO : cf_ops C) (PO : tbl_policy (K * C)) (tD : ity).
Context (KL : key_laws KO KS) (CL : cf_laws CO) (HT : integral_type tD) (DI : degrees_in KS tD).
Notation series := (series K C trunc_t).
Notation store := (@store K C trunc_t).
Notation WF := (wf KO KS CO).
Notation TO := ps_tag_ops.
Notation bounded x y := (Z.of_nat (len (s_ss x) + len (s_ss y)) <= imax size_t).

Theorem ps_addsub_destroys : forall sign y rx ry (h : store) o h', y = LX \/ y = LY -> WF (h LX) -> WF (h LY) -> trunc_ok tD (s_tag (h LX)) -> trunc_ok tD (s_tag (h y)) -> bounded (h LX) (h y) ->
  x_ps_addsub KO CO PO tD sign y rx ry h o h' -> forall l, h' l = h l \/ destructible KO CO (h' l) \/ (l = LR /\ half_negated CO sign o (h' LR)).
Proof.
  intros sign y rx ry h o h' HY WX WY TX TY B H. unfold x_ps_addsub in H. apply rd_inv in H. apply rd_inv in H.
  assert (Wy : WF (h y)) by (destruct HY as [->| ->]; auto). pose proof (fun s : series => wf_destructible KO KS CO KL s) as WI.
  assert (LEFT : forall o1 h1, x_addsub KO CO PO TO sign y rx ry h o1 h1 -> forall l, h1 l = h l \/ destructible KO CO (h1 l) \/ (l = LR /\ half_negated CO sign o1 (h1 LR))).
  { intros o1 h1 X. apply (addsub_destroys KO KS CO PO TO KL CL sign y rx ry h o1 h1); auto. }
  assert (DONE : forall h1, x_addsub KO CO PO TO sign y rx ry h (Some tt) h1 -> (forall l, l <> LR -> h' l = h1 l) -> WF (h' LR) -> forall l, h' l = h l \/ destructible KO CO (h' l) \/ (l = LR /\ half_negated CO sign o (h' LR))).
  { intros h1 H1 F W l. destruct (loc_eqb l LR) eqn:E1; [apply loc_eqb_iff in E1; subst l; right; left; apply WI; exact W|]. assert (N : l <> LR) by (intros ->; discriminate).
    rewrite (F l N). destruct (LEFT _ _ H1 l) as [X|[X|(X & _)]]; [auto|auto|contradiction]. }
  apply (visit_inv KO KS CO tD KL HT DI (x_addsub KO CO PO TO sign y rx ry) LR (h LX) (h y) (if sign then series_add KO CO PO TO else series_sub KO CO PO TO)) in H; auto.
  - destruct H as [(-> & E & W & h1 & H1 & F)|[(-> & ->)|[(-> & H1)|(-> & h1 & H1 & F & W & _)]]]; [eapply DONE; eauto|auto|apply (LEFT _ _ H1)|eapply DONE; eauto].
  - intros o1 h1 X ->. apply (addsub_exceptions KO KS CO PO TO KL CL) in X as (A & _); auto. split; [destruct sign; exact A|].
    destruct (add_sub_exact KO KS CO PO TO KL CL sign (h LX) (h y) WX Wy B) as [(r & E & W & _)|[[E|E] _]]; rewrite A in E; try discriminate. injection E as ->. exact W.
Qed.
Theorem ps_in_place_destroys : forall sign y rx ry (h : store) o h', y = LX \/ y = LY -> WF (h LX) -> WF (h LY) -> trunc_ok tD (s_tag (h LX)) -> trunc_ok tD (s_tag (h y)) -> bounded (h LX) (h y) ->
  x_ps_in_place_addsub KO CO PO tD sign y rx ry h o h' -> forall l, h' l = h l \/ destructible KO CO (h' l).
Proof.
  intros sign y rx ry h o h' HY WX WY TX TY B H. unfold x_ps_in_place_addsub in H. apply rd_inv in H. apply rd_inv in H.
  pose proof (fun s : series => wf_destructible KO KS CO KL s) as WI.
  assert (LEFT : forall o1 h1, x_in_place_addsub KO CO PO TO sign y rx ry h o1 h1 -> forall l, h1 l = h l \/ destructible KO CO (h1 l)).
  { intros o1 h1 X. apply (in_place_destroys KO KS CO PO TO KL CL sign y rx ry h o1 h1); auto. }
  assert (DONE : forall h1, x_in_place_addsub KO CO PO TO sign y rx ry h (Some tt) h1 -> (forall l, l <> LX -> h' l = h1 l) -> WF (h' LX) -> forall l, h' l = h l \/ destructible KO CO (h' l)).
  { intros h1 H1 F W l. destruct (loc_eqb l LX) eqn:E1; [apply loc_eqb_iff in E1; subst l; right; apply WI; exact W|]. assert (N : l <> LX) by (intros ->; discriminate).
    rewrite (F l N). apply (LEFT _ _ H1 l). }
  apply (visit_inv KO KS CO tD KL HT DI (x_in_place_addsub KO CO PO TO sign y rx ry) LX (h LX) (h y) (fun a b => series_in_place_addsub KO CO PO CO PO TO sign (fun c => c) a (loc_eqb LX y) b)) in H; auto.
  - destruct H as [(-> & E & W & h1 & H1 & F)|[(-> & ->)|[(-> & H1)|(-> & h1 & H1 & F & W & _)]]]; [eapply DONE; eauto|auto|apply (LEFT _ _ H1)|eapply DONE; eauto].
  - intros o1 h1 X ->. apply (in_place_exceptions KO KS CO PO TO KL CL) in X as (A & W & _); auto.
Qed.
End PS.

(** ** The exception of the difference is real: y - x with one term in y, none in x, and a coefficient whose negation throws with a zero left. *)
Definition no_terms := psb (total_truncation 2) ["a"; "b"; "c"]%string 0 [].
Lemma no_terms_wf : wf exK exS Z_cf no_terms /\ s_ss no_terms = ["a"; "b"; "c"]%string.
Proof.
  pose proof (psb_wf (total_truncation 2) ["a"; "b"; "c"]%string 0 []) as H. destruct H as (W & S & _); [repeat constructor|lia|vm_compute; reflexivity|]. auto.
Qed.
Definition sub_st : @store Z Z trunc_t := fun l => match l with LX => no_terms | _ => xt_y end.
Theorem sub_destroys_refuted : exists h h' : @store Z Z trunc_t, wf exK exS Z_cf (h LX) /\ wf exK exS Z_cf (h LY) /\ x_addsub exK Z_cf exP ps_tag_ops false LY false false h None h' /\
  h' LR <> h LR /\ ~ destructible exK Z_cf (h' LR).
Proof.
  pose proof no_terms_wf as (WX & SX). pose proof xt_y_wf as (WY & SY & _).
  assert (R : exists r, term_merger exK Z_cf exP false (fun s : series Z Z trunc_t => Ok s) (fun c : Z => c) xt_y no_terms = Ok r /\ s_tables r = s_tables xt_y) by (eexists; split; [vm_compute; reflexivity|vm_compute; reflexivity]).
  destruct R as (r & R & TR).
  destruct (merger_run exK exS Z_cf exP ps_tag_ops false LY false LX false sub_st r) as (h1 & H1 & E1); auto; try discriminate.
  destruct (s_tables xt_y) as [|t l] eqn:ET; [vm_compute in ET; discriminate|]. destruct t as [|[k c] [|? ?]]; [vm_compute in ET; discriminate| |vm_compute in ET; discriminate].
  exists sub_st, (upd h1 LR (put_table r 0 [(k, 0)])). split; [exact WX|]. split; [exact WY|]. split; [|split].
  - unfold x_addsub. apply rd_run, rd_run. change (sub_st LX) with no_terms. change (sub_st LY) with xt_y. rewrite SX, SY. change (ss_eqb ["a"; "b"; "c"]%string ["a"; "b"; "c"]%string) with true. cbv iota.
    unfold x_merge_same. apply rd_run, rd_run. change (sub_st LX) with no_terms. change (sub_st LY) with xt_y. replace (series_size xt_y <=? series_size no_terms)%nat with false by (vm_compute; reflexivity).
    eapply bind_run; [exact H1|]. exists (put_table r 0 [(k, 0)]). split; [|reflexivity]. rewrite E1.
    unfold x_negate. apply get_some. rewrite TR. cbn [List.length seq mfor]. right. split; [reflexivity|]. unfold on_table. rewrite TR. cbn [nth_error]. exists [(k, 0)]. split; [|reflexivity].
    apply get_some. cbn [mfor]. right. split; [reflexivity|]. right. split; [reflexivity|]. exists 0. assert (EK : k_eqb exK k k = true) by (apply (kl_eqb _ _ exK_laws); reflexivity). unfold tbl_update. cbn [fst map]. rewrite EK. reflexivity.
  - rewrite upd_same. intros X. apply (f_equal (fun s => List.map snd (terms s))) in X. unfold terms, put_table, set_tables in X. cbn [s_tables] in X. rewrite TR in X. vm_compute in X. discriminate X.
  - rewrite upd_same. intros [X|X]; [unfold put_table, set_tables in X; cbn [s_tables] in X; rewrite TR in X; discriminate X|].
    destruct X as ((X & _) & _). apply (X k 0); [|reflexivity]. unfold put_table, set_tables. cbn [s_tables]. rewrite TR. left. reflexivity.
Qed.

(** A run of a sum which ends in the extension of its first operand: what it destroys is the copy in the making, with its symbols and without terms. *)
Example ex_dtor : exists h' : @store Z Z trunc_t, wf exK exS Z_cf (xt_h LX) /\ wf exK exS Z_cf (xt_h LY) /\ x_addsub exK Z_cf exP ps_tag_ops true LY false false xt_h None h' /\
  h' LA <> xt_h LA /\ s_ss (h' LA) = ["a"; "b"; "c"]%string /\ destructible exK Z_cf (h' LA).
Proof.
  pose proof ps_x_wf as (WX & SX & _ & TX). pose proof xt_y_wf as (WY & SY & _ & TY).
  pose (a := Series [[]] 0 no_truncation xt_u : series Z Z trunc_t).
  assert (EA : set_symbol_set (series_default ps_tag_ops) xt_u = Ok a) by (vm_compute; reflexivity). assert (SA : s_ss a = xt_u) by reflexivity. assert (TA : s_tables a = [[]]) by reflexivity.
  assert (R : x_addsub exK Z_cf exP ps_tag_ops true LY false false xt_h None (upd xt_h LA a)).
  { unfold x_addsub. apply rd_run, rd_run. change (xt_h LX) with ps_x. change (xt_h LY) with xt_y. rewrite SX, SY.
    replace (ss_eqb ["a"; "b"]%string ["a"; "b"; "c"]%string) with false by (vm_compute; reflexivity). apply call_some. apply (res_some _ _ _ _ _ (xt_u, xt_m, [])); [vm_compute; reflexivity|].
    replace (map_empty xt_m) with false by (vm_compute; reflexivity). cbn [map_empty]. right. split; [reflexivity|]. unfold x_extend_to. apply call_some. apply (res_some _ _ _ _ _ a EA). apply wr_run.
    exists (upd xt_h LA a). split; [|reflexivity]. apply rd_run, rd_run. rewrite upd_same, upd_other by discriminate. change (xt_h LX) with ps_x.
    assert (EN : exists t' : series Z Z trunc_t, set_n_segments a (get_s_size ps_x) = Ok t') by (eexists; vm_compute; reflexivity). destruct EN as (t' & EN).
    apply (res_some _ _ _ _ _ t' EN). right. split; [reflexivity|]. split; [reflexivity|]. right. reflexivity. }
  exists (upd xt_h LA a). split; [exact WX|]. split; [exact WY|]. split; [exact R|]. split; [|split].
  - rewrite upd_same. intros X. apply (f_equal (fun s => s_tables s)) in X. rewrite TA in X. vm_compute in X. discriminate X.
  - rewrite upd_same. exact SA.
  - destruct (addsub_destroys exK exS Z_cf exP ps_tag_ops exK_laws Z_cf_laws true LY false false xt_h None (upd xt_h LA a)) with (l := LA) as [X|[X|(X & _)]]; [auto|exact WX|exact WY| |exact R| |exact X|discriminate].
    + change (xt_h LX) with ps_x. change (xt_h LY) with xt_y. rewrite SX, SY. vm_compute. discriminate.
    + exfalso. rewrite upd_same in X. apply (f_equal (fun s => s_tables s)) in X. rewrite TA in X. vm_compute in X. discriminate X.
Qed.
Print Assumptions addsub_destroys.
Print Assumptions in_place_destroys.
Print Assumptions scalar_mul_destroys.
Print Assumptions in_place_scalar_mul_destroys.
Print Assumptions ps_addsub_destroys.
Print Assumptions ps_in_place_destroys.
Print Assumptions sub_destroys_refuted.
