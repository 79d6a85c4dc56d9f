(** Property C62: exceptions. Whatever operation on a coefficient or key, or allocation, throws, and whenever it does: the series which are involved satisfy the
    invariants afterwards, and operands passed by lvalue are unchanged; without an exception the outcome is that of the model without exceptions, whether
    operands are passed by lvalue, by rvalue, or are the same object. *)
From Coq Require Import ZArith List Bool String Arith Sorted Permutation Lia Ring Ring_theory.
From Verif Require Import Base KpackModel KpackSpec KpackProofs P_Kpack IntModel IntSpec IntProofs SymModel SymSpec SymProofs P_Sym PMonModel PMonSpec PMonProofs KeyOps
  SeriesModel SeriesModel2 SeriesSpec SeriesProofs SeriesProofs2 SeriesProofs3 SeriesProofs4 SeriesProofs5 SeriesProofs6 CfInst P_Series P_Series2 PolyModel PolyModel2 SerModel SerSpec P_Ser P_Inv ExnModel ExnProofs ExnProofs2.
Import ListNotations.
Open Scope Z_scope.
Open Scope res_scope.
Local Notation len := List.length.

Section PX.
Context {K C Tag : Type} (KO : key_ops K) (KS : key_sem K) (CO : cf_ops C) (PO : tbl_policy (K * C)) (TO : tag_ops Tag).
Context (KL : key_laws KO KS) (CL : cf_laws CO).
Notation series := (series K C Tag).
Notation WF := (wf KO KS CO).
Notation INV := (invariants KO CO).
Notation store := (@store K C Tag).
Notation bounded x y := (Z.of_nat (len (s_ss x) + len (s_ss y)) <= imax size_t).

(** C62. add_term: without an exception the result is that of [add_term] (C25); with an exception the series has no terms other than the original ones. *)
Theorem add_term_exceptions : forall sign (s : series) k c o s', WF s -> ks_valid KS (len (s_ss s)) k -> x_add_term_pub KO CO PO sign k c s o s' ->
  match o with
  | Some _ => add_term KO CO PO sign s k c = Ok s'
  | None => incl (terms s') (terms s) /\ s_ss s' = s_ss s /\ s_tag s' = s_tag s
  end /\ WF s' /\ INV s'.
Proof.
  intros sign s k c o s' W V H. unfold x_add_term_pub in H. apply (x_term_inv KO KS CO PO KL) in H as [(-> & E & _)|(-> & L)]; [| |apply (wf_shaped KO KS CO); exact W].
  - destruct (add_term_gen KO KS CO PO KL CL sign true true true false s k c W V) as [(s1 & E1 & W1 & _)|(E1 & _)]; try discriminate; auto; [|congruence].
    assert (s1 = s') as -> by congruence. split; [exact E|]. split; [exact W1|apply (wf_invariants KO KS CO KL); exact W1].
  - destruct (lost_wf KO KS CO s s' W L) as (W' & I & M1 & M2 & M3). split; [auto|]. split; [exact W'|apply (wf_invariants KO KS CO KL); exact W'].
Qed.

(** x op= c, with c of lesser rank. *)
Theorem in_place_scalar_exceptions : forall sign (s : series) c o s', WF s -> ks_fits KS (repeat 0 (len (s_ss s))) -> x_in_place_scalar KO CO PO sign c s o s' ->
  match o with
  | Some _ => series_addsub_scalar KO CO PO sign s c = Ok s'
  | None => incl (terms s') (terms s) /\ s_ss s' = s_ss s /\ s_tag s' = s_tag s
  end /\ WF s' /\ INV s'.
Proof.
  intros sign s c o s' W F H. unfold x_in_place_scalar in H. apply get_inv in H. apply (x_term_inv KO KS CO PO KL) in H as [(-> & E & _)|(-> & L)]; [| |apply (wf_shaped KO KS CO); exact W].
  - destruct (scalar_addsub_exact KO KS CO PO KL CL sign s c W F _ false eq_refl) as [(s1 & E1 & W1 & _)|(E1 & _)]; unfold series_addsub_scalar in E1; rewrite E in E1; [|discriminate].
    injection E1 as <-. split; [exact E|]. split; [exact W1|apply (wf_invariants KO KS CO KL); exact W1].
  - destruct (lost_wf KO KS CO s s' W L) as (W' & I & M1 & M2 & M3). split; [auto|]. split; [exact W'|apply (wf_invariants KO KS CO KL); exact W'].
Qed.

(** The in-place sum and difference.  y is the object LY, or the object of x. *)
Definition in_place_outcome (sign : bool) (y : loc) (rx ry : bool) (h : store) (o : option unit) (h' : store) : Prop :=
  match o with
  | Some _ => series_in_place_addsub KO CO PO CO PO TO sign (fun c => c) (h LX) (loc_eqb LX y) (h y) = Ok (h' LX)
  | None => incl (s_ss (h' LX)) (s_ss (h LX) ++ s_ss (h y))
  end /\ WF (h' LX) /\ WF (h' LY) /\
  (h' LY = h LY \/ (y = LY /\ ry = true /\ terms (h' LY) = [] /\ s_ss (h' LY) = [])).

Lemma cleared_is (a : series) : terms (series_clear TO a) = [] /\ s_ss (series_clear TO a) = [].
Proof. split; [|reflexivity]. unfold terms, series_clear. cbn [s_tables]. induction (s_tables a); auto. Qed.
Lemma used_cases rv (a : series) : used TO rv a = a \/ (rv = true /\ terms (used TO rv a) = [] /\ s_ss (used TO rv a) = []).
Proof. destruct rv; [right; split; [reflexivity|apply cleared_is]|left; reflexivity]. Qed.
Lemma lost_ss (s s' : series) : lost s s' -> s_ss s' = s_ss s. Proof. intros [->|(i & t & _ & ->)]; reflexivity. Qed.
Lemma same_out sign rhs rv (h : store) o h' : LX <> rhs -> WF (h LX) -> WF (h rhs) -> s_ss (h rhs) = s_ss (h LX) -> x_in_place_same KO CO PO TO sign LX rhs rv h o h' ->
  h' rhs = used TO rv (h rhs) /\ (forall l, l <> LX -> l <> rhs -> h' l = h l) /\ WF (h' LX) /\ s_ss (h' LX) = s_ss (h LX) /\
  (o = Some tt -> in_place_with_identical_ss KO CO PO sign (fun c : C => c) (h LX) false (h rhs) = Ok (h' LX)) /\ (o = Some tt \/ o = None).
Proof.
  intros N WL WR ES H. apply (in_place_same_inv KO KS CO PO TO KL CL) in H as (U & F & R); auto. split; [exact U|]. split; [exact F|].
  destruct R as [(-> & E)|(-> & l1 & e & l2 & s1 & ET & E & W1 & L)].
  - destruct (in_place_same_ok KO KS CO CO PO KL CL (fun c : C => c) eq_refl (fun a b => eq_refl) sign (h LX) (h rhs) WL WR ES) as [(r & E' & W & S1 & _)|(E' & _)]; [|congruence].
    assert (r = h' LX) as -> by congruence. auto.
  - destruct (lost_wf KO KS CO s1 (h' LX) W1 L) as (W2 & _ & _). split; [exact W2|]. split; [|split; [discriminate|auto]]. rewrite (lost_ss _ _ L).
    destruct (add_all_ok KO KS CO PO KL CL sign (fun c : C => c) (h LX) l1 WL) as [(r & E' & _ & (M & _ & _) & _)|(E' & _)]; [|congruence|congruence].
    intros k c J. rewrite <- ES. apply (wf_valid _ _ _ _ WR k c). rewrite ET. apply in_or_app. auto.
Qed.
Lemma ext_out to from rv u m (h : store) o h' : to <> from -> WF (h from) -> ins_map_ok (len (s_ss (h from))) m -> insert_all (ins_at m) 0 (s_ss (h from)) = u -> sorted_set u ->
  x_extend_to KO CO PO TO to from rv u m h o h' ->
  (forall l, l <> to -> l <> from -> h' l = h l) /\ WF (h' from) /\ (h' from = h from \/ h' from = used TO rv (h from)) /\
  ((o = Some tt /\ h' from = used TO rv (h from) /\ WF (h' to) /\ s_ss (h' to) = u /\ extend_to KO CO PO TO (tag_default TO) true (fun c : C => c) u (h from) m = Ok (h' to)) \/ o = None).
Proof.
  intros N W IM EU SU H. apply (extend_inv KO KS CO PO TO KL) in H as (F & R); auto. split; [exact F|]. pose proof (used_wf KO KS CO TO rv (h from) W) as WU.
  destruct R as [(-> & U & E)|(-> & U)]; [|split; [destruct U as [->| ->]; auto|auto]]. split; [rewrite U; auto|]. split; [auto|]. left. split; [reflexivity|]. split; [exact U|].
  destruct (extend_ok KO KS CO CO PO TO KL CL (fun c : C => c) eq_refl (fun a b => eq_refl) (tag_default TO) true (h from) m u W IM EU SU (or_introl eq_refl)) as [(a & E' & WA & SA & _)|([E'|E'] & _)]; [|congruence|congruence].
  assert (a = h' to) as -> by congruence. auto.
Qed.
Lemma used_ss rv (a : series) : incl (s_ss (used TO rv a)) (s_ss a). Proof. destruct rv; [intros ? []|apply incl_refl]. Qed.

Theorem in_place_exceptions : forall sign y rx ry h o h', y = LX \/ y = LY -> WF (h LX) -> WF (h LY) -> bounded (h LX) (h y) ->
  x_in_place_addsub KO CO PO TO sign y rx ry h o h' -> in_place_outcome sign y rx ry h o h'.
Proof.
  intros sign y rx ry h o h' HY WX WY B H.
  assert (OUT : forall l, (h' LX = l) -> o = Some tt \/ o = None -> (o = Some tt -> series_in_place_addsub KO CO PO CO PO TO sign (fun c => c) (h LX) (loc_eqb LX y) (h y) = Ok l) -> WF l -> incl (s_ss l) (s_ss (h LX) ++ s_ss (h y)) -> WF (h' LY) ->
    (h' LY = h LY \/ (y = LY /\ h' LY = used TO ry (h LY))) -> in_place_outcome sign y rx ry h o h').
  { intros l <- HO E W I WL U. unfold in_place_outcome. split; [destruct HO as [->| ->]; auto|]. split; [exact W|]. split; [exact WL|]. destruct U as [U|(EY & U)]; [auto|]. rewrite U. destruct (used_cases ry (h LY)) as [X|X]; auto. }
  unfold x_in_place_addsub in H. apply rd_inv in H. apply rd_inv in H. unfold series_in_place_addsub in OUT.
  destruct (ss_eqb (s_ss (h LX)) (s_ss (h y))) eqn:ES.
  - apply ss_eqb_iff in ES. destruct HY as [->| ->]; cbn [loc_eqb] in *.
    + apply cp_inv in H as [H|(-> & ->)]; [|apply (OUT _ eq_refl); auto; [discriminate|apply incl_appl, incl_refl]].
      set (h1 := upd h LB (h LX)) in *. assert (X1 : h1 LX = h LX) by reflexivity. assert (X2 : h1 LB = h LX) by reflexivity. assert (X3 : h1 LY = h LY) by reflexivity.
      apply same_out in H; [|discriminate|rewrite X1; exact WX|rewrite X2; exact WX|rewrite X1, X2; reflexivity]. rewrite X1, X2 in H. destruct H as (_ & F & W & S1 & E & HO).
      pose proof (F LY ltac:(discriminate) ltac:(discriminate)) as FY. rewrite X3 in FY. apply (OUT _ eq_refl); auto; [rewrite S1; apply incl_appl, incl_refl|rewrite FY; exact WY].
    + apply same_out in H; [|discriminate|exact WX|exact WY|congruence]. destruct H as (FY & F & W & S1 & E & HO).
      apply (OUT _ eq_refl); auto; [rewrite S1; apply incl_appl, incl_refl|rewrite FY; apply (used_wf KO KS CO TO); exact WY].
  - assert (y = LY) as ->. { destruct HY as [->| ->]; auto. rewrite (proj2 (ss_eqb_iff _ _) eq_refl) in ES. discriminate. } cbn [loc_eqb] in *.
    destruct (merge_symbol_sets_exact (s_ss (h LX)) (s_ss (h LY)) (wf_ss _ _ _ _ WX) (wf_ss _ _ _ _ WY) B) as (u & mx & my & EM & SU & IU & IX & IY & MX & MY & _).
    rewrite EM in *. cbn [bind] in *. assert (OUTN : forall l, h' LX = l -> o = None -> WF l -> incl (s_ss l) (s_ss (h LX) ++ s_ss (h LY)) -> WF (h' LY) -> (h' LY = h LY \/ h' LY = used TO ry (h LY)) -> in_place_outcome sign LY rx ry h o h').
    { intros l EL HO W I WL U. apply (OUT l EL); auto; [rewrite HO; discriminate|destruct U; auto]. }
    apply call_inv in H as [H|(HO & ->)]; [|apply (OUTN _ eq_refl); auto; apply incl_appl, incl_refl].
    apply res_inv in H; [|discriminate]. destruct H as [(m & E & H)|(_ & _ & e & E)]; [|discriminate]. injection E as <-.
    assert (UI : incl u (s_ss (h LX) ++ s_ss (h LY))) by (intros z J; apply in_or_app, IU, J).
    assert (BX : mx = [] -> s_ss (h LX) = u) by (intros ->; exact (eq_trans (eq_sym (insert_nil _ 0)) IX)).
    assert (BY : my = [] -> s_ss (h LY) = u) by (intros ->; exact (eq_trans (eq_sym (insert_nil _ 0)) IY)).
    destruct (map_empty mx) eqn:EX, (map_empty my) eqn:EY.
    + exfalso. destruct mx; [|discriminate]. destruct my; [|discriminate]. rewrite (proj2 (ss_eqb_iff _ _)) in ES; [discriminate|]. rewrite BX, BY; auto.
    + assert (SX : s_ss (h LX) = u) by (destruct mx; [auto|discriminate]). destruct H as [([] & h1 & H1 & H2)|(HO & H1)].
      * apply ext_out in H1 as (F1 & W1 & _ & [(_ & U1 & WB & SB & E1)|X]); auto; try discriminate. pose proof (F1 LX ltac:(discriminate) ltac:(discriminate)) as X1.
        apply same_out in H2 as (U2 & F2 & W2 & S2 & E2 & HO); [|discriminate|rewrite X1; exact WX|exact WB|congruence]. pose proof (F2 LY ltac:(discriminate) ltac:(discriminate)) as F2Y. rewrite X1 in *.
        apply (OUT _ eq_refl); auto; [intros X; rewrite E1; cbn [bind]; auto|rewrite S2; apply incl_appl, incl_refl|rewrite F2Y; exact W1|rewrite F2Y, U1; auto].
      * apply ext_out in H1 as (F1 & W1 & U1 & _); auto; try discriminate. rewrite HO in *. pose proof (F1 LX ltac:(discriminate) ltac:(discriminate)) as X1. apply (OUTN _ eq_refl); auto; rewrite X1; [exact WX|apply incl_appl, incl_refl].
    + assert (SY : s_ss (h LY) = u) by (destruct my; [auto|discriminate]). destruct H as [([] & h1 & H1 & H2)|(HO & H1)].
      * apply ext_out in H1 as (F1 & W1 & _ & [(_ & U1 & WA & SA & E1)|X]); auto; try discriminate. pose proof (F1 LY ltac:(discriminate) ltac:(discriminate)) as Y1.
        apply mv_inv in H2. set (h2 := upd (upd h1 LX (h1 LA)) LA (moved_from (h1 LA))) in *. assert (X2 : h2 LX = h1 LA) by reflexivity. assert (Y2 : h2 LY = h LY) by (rewrite <- Y1; reflexivity).
        apply same_out in H2 as (U2 & F2 & W2 & S2 & E2 & HO); [|discriminate|rewrite X2; exact WA|rewrite Y2; exact WY|congruence]. rewrite Y2, X2 in *.
        apply (OUT _ eq_refl); auto; [intros X; rewrite E1; cbn [bind]; auto|rewrite S2, SA; exact UI|rewrite U2; apply (used_wf KO KS CO TO); exact WY].
      * apply ext_out in H1 as (F1 & W1 & U1 & _); auto; try discriminate. rewrite HO in *. pose proof (F1 LY ltac:(discriminate) ltac:(discriminate)) as Y1. apply (OUTN _ eq_refl); auto; [|rewrite Y1; exact WY].
        destruct U1 as [->| ->]; [apply incl_appl, incl_refl|eapply incl_tran; [apply used_ss|apply incl_appl, incl_refl]].
    + destruct H as [([] & h1 & H1 & H2)|(HO & H1)].
      * apply ext_out in H1 as (F1 & W1 & _ & [(_ & U1 & WA & SA & E1)|X]); auto; try discriminate. pose proof (F1 LY ltac:(discriminate) ltac:(discriminate)) as Y1.
        assert (I1 : incl (s_ss (h1 LX)) (s_ss (h LX) ++ s_ss (h LY))) by (rewrite U1; eapply incl_tran; [apply used_ss|apply incl_appl, incl_refl]).
        destruct H2 as [([] & h2 & H2 & H3)|(HO & H2)].
        -- apply ext_out in H2 as (F2 & W2 & _ & [(_ & U2 & WB & SB & E2)|X]); auto; try discriminate; try (rewrite Y1; auto; fail). pose proof (F2 LA ltac:(discriminate) ltac:(discriminate)) as A2. rewrite Y1 in *.
           apply mv_inv in H3. set (h3 := upd (upd h2 LX (h2 LA)) LA (moved_from (h2 LA))) in *. assert (X3 : h3 LX = h1 LA) by (rewrite <- A2; reflexivity). assert (B3 : h3 LB = h2 LB) by reflexivity. assert (Y3 : h3 LY = h2 LY) by reflexivity.
           apply same_out in H3 as (U3 & F3 & W3 & S3 & E3 & HO); [|discriminate|rewrite X3; exact WA|rewrite B3; exact WB|congruence]. pose proof (F3 LY ltac:(discriminate) ltac:(discriminate)) as Y4. rewrite Y3 in Y4. rewrite X3, B3 in *.
           apply (OUT _ eq_refl); auto; [intros X; rewrite E1; cbn [bind]; rewrite E2; cbn [bind]; auto|rewrite S3, SA; exact UI|rewrite Y4; exact W2|rewrite Y4, U2; auto].
        -- apply ext_out in H2 as (F2 & W2 & U2 & _); auto; try discriminate; try (rewrite Y1; auto; fail). rewrite HO in *. rewrite Y1 in *. pose proof (F2 LX ltac:(discriminate) ltac:(discriminate)) as X2. apply (OUTN _ eq_refl); auto; rewrite X2; auto.
      * apply ext_out in H1 as (F1 & W1 & U1 & _); auto; try discriminate. rewrite HO in *. pose proof (F1 LY ltac:(discriminate) ltac:(discriminate)) as Y1. apply (OUTN _ eq_refl); auto; [|rewrite Y1; exact WY].
        destruct U1 as [->| ->]; [apply incl_appl, incl_refl|eapply incl_tran; [apply used_ss|apply incl_appl, incl_refl]].
Qed.

(** An operand after a binary operation: unchanged if it is an lvalue; an rvalue may also be moved from or cleared. *)
Definition after (rvalue : bool) (a b : series) : Prop := b = a \/ (rvalue = true /\ (b = moved_from a \/ b = series_clear TO a)).
Lemma after_used rv a : after rv a (used TO rv a). Proof. destruct rv; [right; auto|left; reflexivity]. Qed.
Lemma after_refl rv a : after rv a a. Proof. left. reflexivity. Qed.
Lemma after_or rv rv' a b : after rv a b -> after (rv || rv') a b /\ after (rv' || rv) a b.
Proof. intros [->|(-> & H)]; [split; left; reflexivity|]. rewrite orb_true_r. split; right; auto. Qed.

(** x + y and x - y; the return value is in LR. *)
Definition addsub_outcome (sign : bool) (y : loc) (rx ry : bool) (h : store) (o : option unit) (h' : store) : Prop :=
  match o with
  | Some _ => (if sign then series_add KO CO PO TO (h LX) (h y) else series_sub KO CO PO TO (h LX) (h y)) = Ok (h' LR)
  | None => True
  end /\
  (if loc_eqb LX y then after (rx || ry) (h LX) (h' LX) /\ h' LY = h LY else after rx (h LX) (h' LX) /\ after ry (h LY) (h' LY)).

Lemma merger_out sign lhs rl rhs rr (h : store) o h' : lhs <> LR -> rhs <> LR -> WF (h lhs) -> WF (h rhs) -> s_ss (h rhs) = s_ss (h lhs) ->
  x_term_merger KO CO PO TO sign lhs rl rhs rr h o h' ->
  (forall l, l <> LR -> l <> lhs -> l <> rhs -> h' l = h l) /\
  (if loc_eqb lhs rhs then after rr (h lhs) (h' lhs) else after rl (h lhs) (h' lhs) /\ after rr (h rhs) (h' rhs)) /\
  ((o = Some tt /\ term_merger KO CO PO sign (fun s : series => Ok s) (fun c : C => c) (h lhs) (h rhs) = Ok (h' LR) /\ WF (h' LR)) \/ o = None).
Proof.
  intros NL NR WL WR ES H. unfold x_term_merger in H.
  assert (MAIN : forall h1, h1 LR = h lhs -> h1 rhs = h rhs -> mfinally (x_merge_loop KO CO PO sign LR rhs rr) (clearer TO rr rhs) h1 o h' ->
    h' rhs = used TO rr (h rhs) /\ (forall l, l <> LR -> l <> rhs -> h' l = h1 l) /\
    ((o = Some tt /\ term_merger KO CO PO sign (fun s : series => Ok s) (fun c : C => c) (h lhs) (h rhs) = Ok (h' LR) /\ WF (h' LR)) \/ o = None)).
  { intros h1 E1 E2 (h2 & H1 & HC). assert (V : forall k c, In (k, c) (terms (h rhs)) -> ks_valid KS (len (s_ss (h lhs))) k) by (intros k c J; rewrite <- ES; apply (wf_valid _ _ _ _ WR k c J)).
    apply (merge_loop_inv KO KS CO PO KL CL) in H1 as [F R]; [|auto|rewrite E1; exact WL|rewrite E1, E2; exact V].
    destruct (clearer_inv TO LR rhs rr h1 h2 h' (not_eq_sym NR) F HC) as (C1 & C2 & C3). rewrite E2 in C1. split; [exact C1|]. split; [exact C3|]. rewrite C2. destruct R as [(-> & E)|(-> & _)]; [left|auto].
    rewrite E1, E2 in E. split; [reflexivity|]. split; [exact E|].
    destruct (add_all_ok KO KS CO PO KL CL sign (fun c : C => c) (h lhs) (terms (h rhs)) WL V) as [(r & E' & W & _)|(E' & _)]; [|congruence]. assert (r = h2 LR) as <- by congruence. exact W. }
  destruct (loc_eqb lhs rhs) eqn:EQ.
  - apply loc_eqb_iff in EQ. subst rhs. rewrite andb_false_r in H. apply cp_inv in H as [H|(-> & ->)]; [|split; [auto|split; [apply after_refl|auto]]].
    apply MAIN in H as (U & F & R); [|apply upd_same|apply upd_other; auto]. split; [intros l N1 N2 _; rewrite F, upd_other; auto|]. split; [rewrite U; apply after_used|exact R].
  - assert (N : lhs <> rhs) by (intros ->; rewrite (proj2 (loc_eqb_iff rhs rhs) eq_refl) in EQ; discriminate). cbn [negb] in H. rewrite andb_true_r in H. destruct rl.
    + apply mv_inv in H. apply MAIN in H as (U & F & R); [|rewrite upd_other, upd_same; auto|rewrite !upd_other; auto].
      split; [intros l N1 N2 N3; rewrite F, !upd_other; auto|]. split; [|exact R]. split; [|rewrite U; apply after_used]. rewrite F by auto. rewrite upd_same. right. auto.
    + apply cp_inv in H as [H|(-> & ->)]; [|split; [auto|split; [split; apply after_refl|auto]]].
      apply MAIN in H as (U & F & R); [|apply upd_same|apply upd_other; auto]. split; [intros l N1 N2 N3; rewrite F, upd_other; auto|]. split; [|exact R]. split; [|rewrite U; apply after_used]. rewrite F, upd_other by auto. apply after_refl.
Qed.

Lemma merge_out sign a ra b rb (h : store) o h' : a <> LR -> b <> LR -> WF (h a) -> WF (h b) -> s_ss (h b) = s_ss (h a) ->
  x_merge_same KO CO PO TO sign a ra b rb h o h' ->
  (forall l, l <> LR -> l <> a -> l <> b -> h' l = h l) /\
  (if loc_eqb a b then after (ra || rb) (h a) (h' a) else after ra (h a) (h' a) /\ after rb (h b) (h' b)) /\
  ((o = Some tt /\ merge_with_identical_ss KO CO PO sign (fun s : series => Ok s) (fun c : C => c) (fun s : series => Ok s) (fun c : C => c) (h a) (h b) = Ok (h' LR)) \/ o = None).
Proof.
  intros NA NB WA WB ES H. unfold x_merge_same in H. apply rd_inv in H. apply rd_inv in H. unfold merge_with_identical_ss.
  assert (EQ : loc_eqb b a = loc_eqb a b) by (destruct a, b; reflexivity).
  destruct (series_size (h b) <=? series_size (h a))%nat.
  - apply merger_out in H as (F & A & R); auto. split; [exact F|]. split; [|destruct R as [(-> & E & _)|R]; auto].
    destruct (loc_eqb a b); [apply (after_or rb ra); exact A|exact A].
  - assert (AB : forall k : store, (if loc_eqb b a then after ra (h b) (k b) else after rb (h b) (k b) /\ after ra (h a) (k a)) -> (if loc_eqb a b then after (ra || rb) (h a) (k a) else after ra (h a) (k a) /\ after rb (h b) (k b))).
    { intros k. rewrite EQ. destruct (loc_eqb a b) eqn:E; [apply loc_eqb_iff in E; subst; intros A; apply (after_or ra rb); exact A|tauto]. }
    destruct sign.
    + apply merger_out in H as (F & A & R); auto. split; [intros l N1 N2 N3; apply F; auto|]. split; [apply AB; exact A|]. destruct R as [(-> & E & _)|R]; auto.
    + destruct H as [([] & h1 & H1 & H2)|(-> & H1)]; apply merger_out in H1 as (F & A & R); auto.
      * destruct R as [(_ & E & WR)|X]; [|discriminate]. destruct H2 as (s' & H2 & ->).
        split; [intros l N1 N2 N3; rewrite upd_other by auto; apply F; auto|]. split; [apply AB; rewrite !upd_other by auto; exact A|].
        apply (negate_inv KO KS CO KL) in H2 as [(-> & ->)|(-> & _)]; [left|auto|exact WR]. split; [reflexivity|]. rewrite upd_same, E. reflexivity.
      * split; [intros l N1 N2 N3; apply F; auto|]. split; [apply AB; exact A|auto].
Qed.

Theorem addsub_exceptions : forall sign y rx ry h o h', y = LX \/ y = LY -> WF (h LX) -> WF (h LY) -> bounded (h LX) (h y) ->
  x_addsub KO CO PO TO sign y rx ry h o h' -> addsub_outcome sign y rx ry h o h'.
Proof.
  intros sign y rx ry h o h' HY WX WY B H.
  assert (Wy : WF (h y)) by (destruct HY as [->| ->]; auto).
  assert (FUN : (if sign then series_add KO CO PO TO (h LX) (h y) else series_sub KO CO PO TO (h LX) (h y)) = series_addsub KO CO PO TO sign op_same op_same (h LX) (h y)) by (destruct sign; reflexivity).
  unfold addsub_outcome. rewrite FUN. clear FUN. unfold series_addsub. cbn [o_mk o_conv o_same op_same].
  unfold x_addsub in H. apply rd_inv in H. apply rd_inv in H. destruct (ss_eqb (s_ss (h LX)) (s_ss (h y))) eqn:ES.
  - apply ss_eqb_iff in ES. apply merge_out in H as (F & A & R); auto; [|discriminate|destruct HY as [->| ->]; discriminate].
    split; [destruct R as [(-> & E)| ->]; auto|]. destruct (loc_eqb LX y) eqn:EY; [|destruct HY as [->| ->]; [discriminate|exact A]]. apply loc_eqb_iff in EY. subst y. split; [exact A|]. apply F; discriminate.
  - assert (y = LY) as ->. { destruct HY as [->| ->]; auto. rewrite (proj2 (ss_eqb_iff _ _) eq_refl) in ES. discriminate. } cbn [loc_eqb] in *.
    destruct (merge_symbol_sets_exact (s_ss (h LX)) (s_ss (h LY)) (wf_ss _ _ _ _ WX) (wf_ss _ _ _ _ WY) B) as (u & mx & my & EM & SU & IU & IX & IY & MX & MY & _).
    rewrite EM in *. cbn [bind] in *. apply call_inv in H as [H|(-> & ->)]; [|split; [auto|split; apply after_refl]].
    apply res_inv in H; [|discriminate]. destruct H as [(m & E & H)|(_ & _ & e & E)]; [|discriminate]. injection E as <-.
    assert (BX : mx = [] -> s_ss (h LX) = u) by (intros ->; exact (eq_trans (eq_sym (insert_nil _ 0)) IX)).
    assert (BY : my = [] -> s_ss (h LY) = u) by (intros ->; exact (eq_trans (eq_sym (insert_nil _ 0)) IY)).
    assert (AU : forall rv a b, b = a \/ b = used TO rv a -> after rv a b) by (intros rv a b [->| ->]; [apply after_refl|apply after_used]).
    destruct (map_empty mx) eqn:EX, (map_empty my) eqn:EY.
    + exfalso. destruct mx; [|discriminate]. destruct my; [|discriminate]. rewrite (proj2 (ss_eqb_iff _ _)) in ES; [discriminate|]. rewrite BX, BY; auto.
    + assert (SX : s_ss (h LX) = u) by (destruct mx; [auto|discriminate]). destruct H as [([] & h1 & H1 & H2)|(-> & H1)].
      * apply ext_out in H1 as (F1 & W1 & _ & [(_ & U1 & WB & SB & E1)|X]); auto; try discriminate. pose proof (F1 LX ltac:(discriminate) ltac:(discriminate)) as X1.
        apply merge_out in H2 as (F2 & A2 & R2); [|discriminate|discriminate|rewrite X1; exact WX|exact WB|congruence]. pose proof (F2 LY ltac:(discriminate) ltac:(discriminate) ltac:(discriminate)) as Y2. rewrite X1 in *. cbn [loc_eqb] in A2.
        split; [destruct R2 as [(-> & E2)| ->]; [rewrite E1; exact E2|exact I]|]. split; [apply A2|]. apply AU. rewrite Y2, U1. auto.
      * apply ext_out in H1 as (F1 & W1 & U1 & _); auto; try discriminate. split; [exact I|]. rewrite (F1 LX) by discriminate. split; [apply after_refl|apply AU; exact U1].
    + assert (SY : s_ss (h LY) = u) by (destruct my; [auto|discriminate]). destruct H as [([] & h1 & H1 & H2)|(-> & H1)].
      * apply ext_out in H1 as (F1 & W1 & _ & [(_ & U1 & WA & SA & E1)|X]); auto; try discriminate. pose proof (F1 LY ltac:(discriminate) ltac:(discriminate)) as Y1.
        apply merge_out in H2 as (F2 & A2 & R2); [|discriminate|discriminate|exact WA|rewrite Y1; exact WY|congruence]. pose proof (F2 LX ltac:(discriminate) ltac:(discriminate) ltac:(discriminate)) as X2. rewrite Y1 in *. cbn [loc_eqb] in A2.
        split; [destruct R2 as [(-> & E2)| ->]; [rewrite E1; exact E2|exact I]|]. split; [|apply A2]. apply AU. rewrite X2, U1. auto.
      * apply ext_out in H1 as (F1 & W1 & U1 & _); auto; try discriminate. split; [exact I|]. rewrite (F1 LY) by discriminate. split; [apply AU; exact U1|apply after_refl].
    + destruct H as [([] & h1 & H1 & H2)|(-> & H1)].
      * apply ext_out in H1 as (F1 & W1 & _ & [(_ & U1 & WA & SA & E1)|X]); auto; try discriminate. pose proof (F1 LY ltac:(discriminate) ltac:(discriminate)) as Y1.
        destruct H2 as [([] & h2 & H2 & H3)|(-> & H2)].
        -- apply ext_out in H2 as (F2 & W2 & _ & [(_ & U2 & WB & SB & E2)|X]); auto; try discriminate; try (rewrite Y1; auto; fail). pose proof (F2 LA ltac:(discriminate) ltac:(discriminate)) as A2. pose proof (F2 LX ltac:(discriminate) ltac:(discriminate)) as X2. rewrite Y1 in *.
           apply merge_out in H3 as (F3 & A3 & R3); [|discriminate|discriminate|rewrite A2; exact WA|exact WB|congruence]. rewrite A2 in R3.
           pose proof (F3 LX ltac:(discriminate) ltac:(discriminate) ltac:(discriminate)) as X3. pose proof (F3 LY ltac:(discriminate) ltac:(discriminate) ltac:(discriminate)) as Y3.
           split; [destruct R3 as [(-> & E3)| ->]; [rewrite E1; cbn [bind]; rewrite E2; exact E3|exact I]|]. split; apply AU; [rewrite X3, X2, U1; auto|rewrite Y3, U2; auto].
        -- apply ext_out in H2 as (F2 & W2 & U2 & _); auto; try discriminate; try (rewrite Y1; auto; fail). rewrite Y1 in *. pose proof (F2 LX ltac:(discriminate) ltac:(discriminate)) as X2. split; [exact I|]. split; apply AU; [rewrite X2, U1; auto|exact U2].
      * apply ext_out in H1 as (F1 & W1 & U1 & _); auto; try discriminate. split; [exact I|]. rewrite (F1 LY) by discriminate. split; [apply AU; exact U1|apply after_refl].
Qed.

(** negate(x): the series keeps its symbols; each coefficient is negated, original, or what a negation which throws leaves behind.  If that is not zero
    the invariants hold. *)
Theorem negate_exceptions : forall (s : series) o s', WF s -> x_negate KO CO s o s' ->
  match o with
  | Some _ => s' = series_negate CO s
  | None => same_meta s s' /\ map fst (terms s') = map fst (terms s) /\ ((forall k c, In (k, c) (terms s') -> c <> c_zero CO) -> WF s' /\ INV s')
  end.
Proof.
  intros s o s' W H. apply (negate_inv KO KS CO KL) in H as [(-> & ->)|(-> & a & t1 & k & c & g & t2 & b & E & ->)]; [reflexivity| |exact W].
  split; [repeat split|]. set (N := fun e : K * C => (fst e, c_neg CO (snd e))).
  assert (MK : forall l, map fst (map N l) = map fst l) by (intros l; rewrite map_map; reflexivity).
  assert (ME : map fst (terms (set_tables s (map (map N) a ++ (map N t1 ++ (k, g) :: t2) :: b))) = map fst (terms s)).
  { unfold terms, set_tables. cbn [s_tables]. rewrite E, !concat_app, !map_app. cbn [List.concat]. rewrite <- concat_map, MK, !map_app, MK. reflexivity. }
  split; [exact ME|]. intros NZ.
  assert (W' : WF (set_tables s (map (map N) a ++ (map N t1 ++ (k, g) :: t2) :: b))); [|split; [exact W'|apply (wf_invariants KO KS CO KL); exact W']].
  apply wf_iff in W as (W1 & W2 & W3 & W4). apply wf_iff. split; [exact W1|]. split; [exact W2|]. cbn [s_tables set_tables s_log2 s_ss]. split.
  { rewrite <- W3, E, !app_length, map_length. reflexivity. }
  intros i t Ht. assert (exists t0, nth_error (s_tables s) i = Some t0 /\ map fst t = map fst t0) as (t0 & Ht0 & EK).
  { rewrite E. destruct (Nat.lt_ge_cases i (len a)) as [L|L].
    - rewrite nth_error_app1 in Ht by (rewrite map_length; exact L). rewrite nth_error_map in Ht. rewrite nth_error_app1 by exact L. destruct (nth_error a i) as [t0|]; [|discriminate]. injection Ht as <-. exists t0. split; [reflexivity|apply MK].
    - rewrite nth_error_app2 in Ht by (rewrite map_length; exact L). rewrite map_length in Ht. rewrite nth_error_app2 by exact L. destruct (i - len a)%nat; cbn in *; [|eauto]. injection Ht as <-. eexists. split; [reflexivity|]. rewrite !map_app, MK. reflexivity. }
  destruct (W4 i t0 Ht0) as (A & B & D). split; [unfold keys in *; rewrite EK; exact A|]. split.
  - intros x d J. assert (JK : In x (map fst t0)) by (rewrite <- EK; apply in_map_iff; exists (x, d); auto). apply in_map_iff in JK as ([x' d'] & X & JK). cbn in X. subst x'. destruct (B x d' JK) as (B1 & _ & B3). split; [exact B1|]. split; [|exact B3].
    apply (NZ x d). unfold terms, set_tables. cbn [s_tables]. apply in_concat. exists t. split; [eapply nth_error_In; exact Ht|exact J].
  - intros L. specialize (D L). rewrite <- (map_length fst t), EK, map_length. exact D.
Qed.

(** filter(x, f), and so the truncation of polynomials. *)
Theorem filter_exceptions : forall f (s : series) o s', (forall e, In e (terms s) -> f e <> UB) -> WF s -> x_filter KO f s o s' ->
  match o with
  | Some _ => series_filter_res f s = Ok s'
  | None => incl (terms s') (terms s) /\ same_meta s s'
  end /\ WF s' /\ INV s'.
Proof.
  intros f s o s' NU W H. apply (filter_inv KO KS CO KL) in H as [(-> & E)|(-> & W' & I & M)]; auto.
  - pose proof (filter_res_wf KO KS CO PO KL f s s' W E) as W'. split; [exact E|]. split; [exact W'|apply (wf_invariants KO KS CO KL); exact W'].
  - split; [auto|]. split; [exact W'|apply (wf_invariants KO KS CO KL); exact W'].
Qed.

(** x * c: the operand is unchanged if it is an lvalue; x *= c: x is unchanged if an exception is thrown. *)
Theorem scalar_mul_exceptions : forall rx c h o h', WF (h LX) -> x_scalar_mul KO CO TO rx c h o h' ->
  match o with
  | Some _ => h' LR = series_scalar_mul KO CO (h LX) c
  | None => True
  end /\ after rx (h LX) (h' LX) /\ h' LY = h LY.
Proof.
  intros rx c h o h' W H. unfold x_scalar_mul in H. apply rd_inv in H. apply call_inv in H as [H|(-> & ->)]; [|split; [exact I|split; [apply after_refl|reflexivity]]]. unfold series_scalar_mul.
  destruct (series_empty (h LX) || c_is_zero CO c).
  - apply call_inv in H as [H|(-> & ->)]; [|split; [exact I|split; [apply after_refl|reflexivity]]]. destruct H as [-> ->]. split; [reflexivity|]. split; [apply after_refl|reflexivity].
  - assert (MAIN : forall h1, h1 LR = h LX -> on LR (mtry (mbind mget (fun s : series => mfor (seq 0 (len (s_tables s))) (fun i => on_table i (mbind mget (fun t => mbind (mfor t (fun e => mbind (modify KO (fst e) (fun x => c_mul CO x c)) (fun _ => mcall)))
            (fun _ => mbind mget (fun t2 => mfor (filter (fun e => c_is_zero CO (snd e)) t2) (fun e => erase KO (fst e)))))))) ) (series_clear TO)) h1 o h' ->
      match o with Some _ => h' LR = set_tables (h LX) (map (scalar_mul_table KO CO c) (s_tables (h LX))) | None => True end /\ forall l, l <> LR -> h' l = h1 l).
    { intros h1 E1 (s' & HT & ->). rewrite E1 in HT. split; [|intros l N; apply upd_other; auto]. destruct o as [[]|]; [|exact I]. rewrite upd_same. destruct HT as [([] & _ & HT)|(X & _)]; [|discriminate].
      apply get_inv in HT. apply (scalar_tables_inv KO KS CO KL c (h LX) s' W HT). }
    destruct rx.
    + apply mv_inv in H. apply MAIN in H as [R F]; [|rewrite upd_other, upd_same; [reflexivity|discriminate]]. split; [exact R|]. rewrite !F by discriminate. split; [|reflexivity]. right. auto.
    + apply cp_inv in H as [H|(-> & ->)]; [|split; [exact I|split; [apply after_refl|reflexivity]]]. apply MAIN in H as [R F]; [|apply upd_same]. split; [exact R|]. rewrite !F by discriminate. split; [left; reflexivity|reflexivity].
Qed.
Theorem in_place_scalar_mul_exceptions : forall c h o h', WF (h LX) -> x_in_place_scalar_mul KO CO TO false c h o h' ->
  h' LX = match o with Some _ => series_scalar_mul KO CO (h LX) c | None => h LX end.
Proof.
  intros c h o h' W [([] & h1 & H1 & H2)|(-> & H1)].
  - apply scalar_mul_exceptions in H1 as (R & _ & _); [|exact W]. destruct H2 as [-> ->]. rewrite upd_other by discriminate. rewrite upd_same. exact R.
  - apply scalar_mul_exceptions in H1 as (_ & [E|(X & _)] & _); [exact E|discriminate|exact W].
Qed.
End PX.
