(** Property C103: exceptions in the multiplication of polynomials. *)
From Coq Require Import ZArith List Bool String Arith Sorted Permutation Lia Ring Ring_theory.
From Verif Require Import Base KpackModel KpackSpec KpackProofs P_Kpack IntModel IntSpec IntProofs SymModel SymSpec SymProofs P_Sym PMonModel PMonSpec PMonProofs KeyOps
  SeriesModel SeriesModel2 SeriesSpec SeriesProofs SeriesProofs2 SeriesProofs3 SeriesProofs4 SeriesProofs5 SeriesProofs6 P_Series P_Series2 PolyModel PolyModel2 PolySpec PolyProofs7 SerModel SerSpec P_Ser P_Inv
  CfInst P_Poly2 ExnModel ExnProofs ExnProofs2 P_Exn ExnProofs3 ExnModel5 ExnProofs5 ExnProofs6.
Import ListNotations.
Open Scope Z_scope.
Open Scope res_scope.
Local Notation len := List.length.

Section PM.
Context {K C Tag : Type} (KO : key_ops K) (KS : key_sem K) (CO : cf_ops C) (PO : tbl_policy (K * C)) (TO : tag_ops Tag) (E : mul_env K C Tag).
Context (KL : key_laws KO KS) (CL : cf_laws CO).
Notation series := (series K C Tag).
Notation store := (@store K C Tag).
Notation WF := (wf KO KS CO).
Notation INV := (invariants KO CO).
Notation bounded x y := (Z.of_nat (len (s_ss x) + len (s_ss y)) <= imax size_t).
Notation others h h' := (forall l, l <> LR -> h' l = h l).
Notation product := (poly_mul_identical_ss KO CO PO TO E).

(** What an interrupted call leaves of an object: it was not constructed yet or not touched, or it is valid. *)
Notation kept h h' l := (h' l = h l \/ WF (h' l)).

Lemma mt_run t x y (h : store) r : WF (h LR) -> poly_mul_mt KO CO PO E t (h LR) (h x) (h y) = Ok r -> exists h', x_mul_mt KO CO PO TO E t x y h (Some tt) h' /\ h' LR = r.
Proof.
  intros W H. unfold poly_mul_mt in H. cbv zeta in H. unfold x_mul_mt.
  enough (X : exists h', (fun h' => h' LR = r) h' /\ x_mul_mt KO CO PO TO E t x y h (Some tt) h') by (destruct X as (h' & X1 & X2); exists h'; auto). unfold x_mul_mt.
  enough (X : exists h', h' LR = r /\ (fun h' => x_mul_mt KO CO PO TO E t x y h (Some tt) h') h') by exact X. unfold x_mul_mt.
  destruct (check_overflow E (s_ss (h LR)) (terms (h x)) (terms (h y))) as [b| |] eqn:EC; cbn [bind] in H; try discriminate.
  destruct (match t with None => Ok false | Some t0 => no_mults E t0 (s_ss (h LR)) (terms (h x)) (terms (h y)) end) as [nothing| |] eqn:EN; cbn [bind] in H; try discriminate.
  destruct nothing.
  { injection H as <-. exists h. split; [reflexivity|]. apply rd_run, rd_run, rd_run. cbv zeta. apply call_some. eapply res_some; [exact EC|]. apply call_some. eapply res_some; [exact EN|]. split; reflexivity. }
  set (lg := Nat.min (me_log2 E (terms (h x)) (terms (h y))) max_log2_size) in *.
  destruct (set_n_segments (h LR) lg) as [r'| |] eqn:ES; cbn [bind] in H; try discriminate.
  set (v1 := me_sort E (fun e => Z.of_nat (seg_of KO lg e)) (terms (h x))) in *. set (v2 := me_sort E (fun e => Z.of_nat (seg_of KO lg e)) (terms (h y))) in *.
  destruct (compute_vseg KO lg v1) as [vs1| |] eqn:E1; cbn [bind] in H; try discriminate. destruct (compute_vseg KO lg v2) as [vs2| |] eqn:E2; cbn [bind] in H; try discriminate.
  destruct (match t with None => Ok (v1, []) | Some t0 => seg_sorted E t0 (s_ss (h LR)) v1 vs1 end) as [[w1 d1]| |] eqn:EP1; cbn [bind] in H; try discriminate.
  destruct (match t with None => Ok (v2, []) | Some t0 => seg_sorted E t0 (s_ss (h LR)) v2 vs2 end) as [[w2 d2]| |] eqn:EP2; cbn [bind] in H; try discriminate.
  set (f := task_pairs t w1 w2 d1 d2 vs1 vs2 (2 ^ lg)) in *.
  change (bind (rmap (task_of KO CO PO f (s_ss (h LR)) lg (s_tables r')) (seq 0 (2 ^ lg))) (fun tabs => Ok (set_tables r' tabs)) = Ok r) in H.
  destruct (rmap (task_of KO CO PO f (s_ss (h LR)) lg (s_tables r')) (seq 0 (2 ^ lg))) as [tabs| |] eqn:ER; cbn [bind] in H; try discriminate. injection H as <-.
  exists (upd (upd h LR r') LR (set_tables r' tabs)). split; [apply upd_same|]. apply rd_run, rd_run, rd_run. cbv zeta. apply call_some. eapply res_some; [exact EC|]. apply call_some. eapply res_some; [exact EN|].
  apply call_some. eapply res_some; [exact ES|]. apply wr_run. cbv zeta. apply call_some. eapply res_some; [exact E1|]. eapply res_some; [exact E2|]. apply call_some. eapply res_some; [exact EP1|]. eapply res_some; [exact EP2|]. cbn [fst snd].
  left. exists tt. split; [reflexivity|]. exists (set_tables r' tabs). split; [|reflexivity]. rewrite upd_same. unfold x_tasks.
  assert (LG : (lg <= max_log2_size)%nat) by (unfold lg; lia).
  destruct (set_n_segments_ok KO KS CO (h LR) lg LG (wf_ss _ _ _ _ W)) as [ES' _]. rewrite ES in ES'. injection ES' as ->. cbn [s_tables] in *.
  pose proof (tasks_run KO KS CO PO KL f (s_ss (h LR)) lg (repeat [] (2 ^ lg)) (repeat [] (2 ^ lg)) [] (Series (repeat [] (2 ^ lg)) lg (s_tag (h LR)) (s_ss (h LR))) tabs) as TR.
  rewrite repeat_length in TR. cbn [List.length Nat.add app] in TR. apply TR; [reflexivity|apply nth_repeat_nil|reflexivity|exact ER].
Qed.

Lemma start_wf u : sorted_set u -> WF (Series [[]] 0 (tag_default TO) u).
Proof. intros S. apply (set_n_segments_ok KO KS CO (Series [[]] 0 (tag_default TO) u) 0); [cbn; lia|exact S]. Qed.
Lemma identical_inv t x y (h : store) o h' : x <> LR -> y <> LR -> WF (h x) -> product t (h x) (h y) <> UB ->
  x_mul_identical_ss KO CO PO TO E t x y h o h' ->
  others h h' /\ ((o = Some tt /\ product t (h x) (h y) = Ok (h' LR)) \/ (o = None /\ (h' LR = h LR \/ (WF (h' LR) /\ terms (h' LR) = [])))).
Proof.
  intros Nx Ny W NU H. unfold x_mul_identical_ss in H. apply rd_inv in H. apply rd_inv in H. unfold poly_mul_identical_ss in *. pose proof (start_wf _ (wf_ss _ _ _ _ W)) as W0.
  apply call_inv in H as [H|(-> & ->)]; [|auto 6]. change (set_symbol_set (series_default TO) (s_ss (h x))) with (Ok (Series [[]] 0 (tag_default TO) (s_ss (h x)) : series)) in *. cbn [bind] in *.
  set (z := Series [[]] 0 (tag_default TO) (s_ss (h x)) : series) in *. apply res_inv in H; [|discriminate]. destruct H as [(r & ER & H)|(-> & -> & _)]; [|auto 6]. injection ER as <-. apply wr_inv in H.
  set (h1 := upd h LR z) in *. assert (O1 : others h h1) by (intros l N; apply upd_other; congruence). assert (R1 : h1 LR = z) by apply upd_same.
  destruct (series_empty (h x) || series_empty (h y)). { destruct H as [-> ->]. split; [exact O1|]. left. rewrite R1. auto. }
  pose proof (O1 x Nx) as X1. pose proof (O1 y Ny) as Y1. destruct (me_mt E (h x) (h y)).
  - apply (mt_inv KO KS CO PO TO E KL) in H; [|exact Nx|exact Ny|rewrite R1; exact W0|rewrite R1, X1, Y1; exact NU]. destruct H as (O2 & R). rewrite R1, X1, Y1 in R.
    split; [intros l N; rewrite O2, O1; auto|]. destruct R as [R|(-> & R2 & R3)]; [auto|]. right. split; [reflexivity|]. right. split; [exact R2|]. destruct R3 as [->|R3]; [reflexivity|exact R3].
  - apply (simple_inv KO KS CO PO E KL) in H; [|exact Nx|exact Ny|rewrite R1; reflexivity|rewrite R1, X1, Y1; exact NU]. destruct H as (O2 & R). rewrite R1, X1, Y1 in R.
    split; [intros l N; rewrite O2, O1; auto|]. destruct R as [R|(-> & ->)]; [auto|]. right. split; [reflexivity|]. right. split; [exact W0|reflexivity].
Qed.
Lemma identical_run t x y (h : store) r : x <> LR -> y <> LR -> WF (h x) -> product t (h x) (h y) = Ok r -> exists h', x_mul_identical_ss KO CO PO TO E t x y h (Some tt) h' /\ h' LR = r.
Proof.
  intros Nx Ny W H. unfold poly_mul_identical_ss in H. pose proof (start_wf _ (wf_ss _ _ _ _ W)) as W0.
  change (set_symbol_set (series_default TO) (s_ss (h x))) with (Ok (Series [[]] 0 (tag_default TO) (s_ss (h x)) : series)) in H. cbn [bind] in H.
  set (z := Series [[]] 0 (tag_default TO) (s_ss (h x)) : series) in *. set (h1 := upd h LR z). assert (R1 : h1 LR = z) by apply upd_same.
  assert (X1 : h1 x = h x) by (apply upd_other; congruence). assert (Y1 : h1 y = h y) by (apply upd_other; congruence).
  assert (GO : forall h', (if series_empty (h x) || series_empty (h y) then mret tt else if me_mt E (h x) (h y) then x_mul_mt KO CO PO TO E t x y else x_mul_simple KO CO PO E t x y) h1 (Some tt) h' ->
    x_mul_identical_ss KO CO PO TO E t x y h (Some tt) h').
  { intros h' X. unfold x_mul_identical_ss. apply rd_run, rd_run, call_some. eapply res_some; [reflexivity|]. apply wr_run. exact X. }
  destruct (series_empty (h x) || series_empty (h y)). { injection H as <-. exists h1. split; [apply GO; split; reflexivity|exact R1]. }
  destruct (me_mt E (h x) (h y)).
  - rewrite <- R1, <- X1, <- Y1 in H. apply mt_run in H; [|rewrite R1; exact W0]. destruct H as (h' & H & R). exists h'. split; [apply GO, H|exact R].
  - rewrite <- R1, <- X1, <- Y1 in H. apply (simple_run KO KS CO PO E KL) in H; [|rewrite R1; reflexivity]. eexists. split; [apply GO, H|apply upd_same].
Qed.

Notation impl := (poly_mul_impl KO CO PO TO E).
Lemma impl_inv t x y (h : store) o h' : (x = LX \/ x = LY) -> (y = LX \/ y = LY) -> WF (h x) -> WF (h y) -> bounded (h x) (h y) -> impl t (h x) (h y) <> UB ->
  x_mul_impl KO CO PO TO E t x y h o h' ->
  h' LX = h LX /\ h' LY = h LY /\ kept h h' LA /\ kept h h' LB /\
  ((o = Some tt /\ impl t (h x) (h y) = Ok (h' LR)) \/ (o = None /\ (h' LR = h LR \/ (WF (h' LR) /\ terms (h' LR) = [])))).
Proof.
  intros Hx Hy WX WY B NU H. assert (Dx : x <> LA /\ x <> LB /\ x <> LR) by (destruct Hx as [->| ->]; split; [discriminate|split; discriminate|discriminate|split; discriminate]).
  assert (Dy : y <> LA /\ y <> LB /\ y <> LR) by (destruct Hy as [->| ->]; split; [discriminate|split; discriminate|discriminate|split; discriminate]).
  destruct Dx as (XA & XB & XR). destruct Dy as (YA & YB & YR).
  unfold x_mul_impl in H. apply rd_inv in H. apply rd_inv in H. unfold poly_mul_impl in *. destruct (ss_eqb (s_ss (h x)) (s_ss (h y))) eqn:ES.
  - apply identical_inv in H; auto. destruct H as (O & R). rewrite !O by discriminate. auto 8.
  - destruct (merge_symbol_sets_exact (s_ss (h x)) (s_ss (h y)) (wf_ss _ _ _ _ WX) (wf_ss _ _ _ _ WY) B) as (u & mx & my & EM & SU & IU & IX & IY & MX & MY & _).
    rewrite EM in *. cbn [bind] in *. apply call_inv in H as [H|(-> & ->)]; [|auto 9].
    apply res_inv in H; [|discriminate]. destruct H as [(m & EE & H)|(_ & _ & e & EE)]; [|discriminate]. injection EE as <-.
    assert (FR : forall t0 l (g g' : store) oo m0, t0 <> l -> WF (g l) -> ins_map_ok (len (s_ss (g l))) m0 -> insert_all (ins_at m0) 0 (s_ss (g l)) = u -> x_extend_to KO CO PO TO t0 l false u m0 g oo g' ->
      (forall l', l' <> t0 -> g' l' = g l') /\ (g' t0 = g t0 \/ WF (g' t0)) /\
      ((oo = Some tt /\ WF (g' t0) /\ s_ss (g' t0) = u /\ extend_to KO CO PO TO (tag_default TO) true (fun c : C => c) u (g l) m0 = Ok (g' t0)) \/ oo = None)).
    { intros t0 l g g' oo m0 NE WL IM EU HX. pose proof HX as HX'. apply (ext_out KO KS CO PO TO KL CL) in HX'; auto. destruct HX' as (F & _ & U & R).
      assert (F' : forall l', l' <> t0 -> g' l' = g l'). { intros l' N. destruct (loc_eqb l' l) eqn:EL; [apply loc_eqb_iff in EL; subst l'; destruct U; auto|]. apply F; auto. intros ->. rewrite (proj2 (loc_eqb_iff l l) eq_refl) in EL. discriminate. }
      split; [exact F'|]. destruct R as [(-> & U' & W' & S' & X')| ->]; [auto 8|]. split; [|auto]. apply (ext_state KO KS CO PO TO KL CL t0 l false u m0 g g'); auto. }
    assert (FIN : forall (g : store) l1 l2 oo g', l1 <> LR -> l2 <> LR -> WF (g l1) -> product t (g l1) (g l2) <> UB -> g LX = h LX -> g LY = h LY -> g LR = h LR -> kept h g LA -> kept h g LB -> x_mul_identical_ss KO CO PO TO E t l1 l2 g oo g' ->
      g' LX = h LX /\ g' LY = h LY /\ kept h g' LA /\ kept h g' LB /\ ((oo = Some tt /\ product t (g l1) (g l2) = Ok (g' LR)) \/ (oo = None /\ (g' LR = h LR \/ (WF (g' LR) /\ terms (g' LR) = []))))).
    { intros g l1 l2 oo g' N1 N2 W1 NU1 GX GY GR GA GB HX. apply identical_inv in HX; auto. destruct HX as (O & R). rewrite !O by discriminate. rewrite GR in R. auto 8. }
    destruct (map_empty mx) eqn:EX, (map_empty my) eqn:EY.
    + (* both empty: as both non-empty *)
      destruct H as [([] & h1 & H1 & H2)|(-> & H1)].
      * apply FR in H1 as (F1 & K1 & [(_ & W1 & S1 & E1)|X]); auto; [|discriminate]. rewrite E1 in *. cbn [bind] in *.
        destruct H2 as [([] & h2 & H2 & H3)|(-> & H2)].
        -- apply FR in H2 as (F2 & K2 & [(_ & W2 & S2 & E2)|X]); auto; try (rewrite F1 by auto; auto; fail); [|discriminate]. rewrite (F1 y) in E2 by auto. rewrite E2 in *. cbn [bind] in *.
           pose proof (F2 LA ltac:(discriminate)) as A2. rewrite <- A2. apply FIN; auto; try discriminate; try (rewrite A2; auto; fail); try (rewrite F2, F1 by discriminate; reflexivity).
           all: rewrite F1 in K2 by discriminate; exact K2.
        -- apply FR in H2 as (F2 & K2 & _); auto; try (rewrite F1 by auto; auto; fail). rewrite (F2 LX), (F2 LY), (F2 LR), (F2 LA), (F1 LX), (F1 LY), (F1 LR) by discriminate. rewrite F1 in K2 by discriminate. auto 9.
      * apply FR in H1 as (F1 & K1 & _); auto. rewrite (F1 LX), (F1 LY), (F1 LR), (F1 LB) by discriminate. auto 9.
    + destruct H as [([] & h1 & H1 & H2)|(-> & H1)].
      * apply FR in H1 as (F1 & K1 & [(_ & W1 & S1 & E1)|X]); auto; [|discriminate]. rewrite E1 in *. cbn [bind] in *.
        pose proof (F1 x XB) as X1. rewrite <- X1. apply FIN; auto; try discriminate; try (rewrite X1; auto; fail); try (rewrite F1 by discriminate; auto; fail).
      * apply FR in H1 as (F1 & K1 & _); auto. rewrite (F1 LX), (F1 LY), (F1 LR), (F1 LA) by discriminate. auto 9.
    + destruct H as [([] & h1 & H1 & H2)|(-> & H1)].
      * apply FR in H1 as (F1 & K1 & [(_ & W1 & S1 & E1)|X]); auto; [|discriminate]. rewrite E1 in *. cbn [bind] in *.
        pose proof (F1 y YA) as Y1. rewrite <- Y1. apply FIN; auto; try discriminate; try (rewrite Y1; auto; fail); try (rewrite F1 by discriminate; auto; fail).
      * apply FR in H1 as (F1 & K1 & _); auto. rewrite (F1 LX), (F1 LY), (F1 LR), (F1 LB) by discriminate. auto 9.
    + destruct H as [([] & h1 & H1 & H2)|(-> & H1)].
      * apply FR in H1 as (F1 & K1 & [(_ & W1 & S1 & E1)|X]); auto; [|discriminate]. rewrite E1 in *. cbn [bind] in *.
        destruct H2 as [([] & h2 & H2 & H3)|(-> & H2)].
        -- apply FR in H2 as (F2 & K2 & [(_ & W2 & S2 & E2)|X]); auto; try (rewrite F1 by auto; auto; fail); [|discriminate]. rewrite (F1 y) in E2 by auto. rewrite E2 in *. cbn [bind] in *.
           pose proof (F2 LA ltac:(discriminate)) as A2. rewrite <- A2. apply FIN; auto; try discriminate; try (rewrite A2; auto; fail); try (rewrite F2, F1 by discriminate; reflexivity).
           all: rewrite F1 in K2 by discriminate; exact K2.
        -- apply FR in H2 as (F2 & K2 & _); auto; try (rewrite F1 by auto; auto; fail). rewrite (F2 LX), (F2 LY), (F2 LR), (F2 LA), (F1 LX), (F1 LY), (F1 LR) by discriminate. rewrite F1 in K2 by discriminate. auto 9.
      * apply FR in H1 as (F1 & K1 & _); auto. rewrite (F1 LX), (F1 LY), (F1 LR), (F1 LB) by discriminate. auto 9.
Qed.

Lemma impl_run t x y (h : store) r : (x = LX \/ x = LY) -> (y = LX \/ y = LY) -> WF (h x) -> WF (h y) -> bounded (h x) (h y) -> impl t (h x) (h y) = Ok r ->
  exists h', x_mul_impl KO CO PO TO E t x y h (Some tt) h' /\ h' LR = r.
Proof.
  intros Hx Hy WX WY B H. assert (Dx : x <> LA /\ x <> LB /\ x <> LR) by (destruct Hx as [->| ->]; split; [discriminate|split; discriminate|discriminate|split; discriminate]).
  assert (Dy : y <> LA /\ y <> LB /\ y <> LR) by (destruct Hy as [->| ->]; split; [discriminate|split; discriminate|discriminate|split; discriminate]).
  destruct Dx as (XA & XB & XR). destruct Dy as (YA & YB & YR).
  unfold poly_mul_impl in H. destruct (ss_eqb (s_ss (h x)) (s_ss (h y))) eqn:ES.
  - apply identical_run in H as (h' & H & R); auto. exists h'. split; [|exact R]. unfold x_mul_impl. apply rd_run, rd_run. rewrite ES. exact H.
  - destruct (merge_symbol_sets_exact (s_ss (h x)) (s_ss (h y)) (wf_ss _ _ _ _ WX) (wf_ss _ _ _ _ WY) B) as (u & mx & my & EM & SU & IU & IX & IY & MX & MY & _).
    rewrite EM in H. cbn [bind] in H.
    assert (EXT : forall t0 l (g : store) m0 a, t0 <> l -> WF (g l) -> ins_map_ok (len (s_ss (g l))) m0 -> insert_all (ins_at m0) 0 (s_ss (g l)) = u ->
      extend_to KO CO PO TO (tag_default TO) true (fun c : C => c) u (g l) m0 = Ok a -> exists g', x_extend_to KO CO PO TO t0 l false u m0 g (Some tt) g' /\ g' t0 = a /\ WF a /\ (forall l', l' <> t0 -> g' l' = g l')).
    { intros t0 l g m0 a NE WL IM EU EE. destruct (extend_run KO KS CO PO TO t0 l false u m0 g a NE WL EE) as (g' & X1 & X2). exists g'. split; [exact X1|]. split; [exact X2|].
      apply (ext_out KO KS CO PO TO KL CL) in X1; auto. destruct X1 as (F & _ & U & [(_ & _ & W' & _)|X]); [|discriminate]. split; [rewrite <- X2; exact W'|].
      intros l' N. destruct (loc_eqb l' l) eqn:EL; [apply loc_eqb_iff in EL; subst l'; destruct U; auto|]. apply F; auto. intros ->. rewrite (proj2 (loc_eqb_iff l l) eq_refl) in EL. discriminate. }
    assert (GO : forall h', (match map_empty mx, map_empty my with
       | true, false => mbind (x_extend_to KO CO PO TO LB y false u my) (fun _ => x_mul_identical_ss KO CO PO TO E t x LB)
       | false, true => mbind (x_extend_to KO CO PO TO LA x false u mx) (fun _ => x_mul_identical_ss KO CO PO TO E t LA y)
       | _, _ => mbind (x_extend_to KO CO PO TO LA x false u mx) (fun _ => mbind (x_extend_to KO CO PO TO LB y false u my) (fun _ => x_mul_identical_ss KO CO PO TO E t LA LB)) end) h (Some tt) h' ->
       x_mul_impl KO CO PO TO E t x y h (Some tt) h').
    { intros h' X. unfold x_mul_impl. apply rd_run, rd_run. rewrite ES. apply call_some. eapply res_some; [exact EM|]. exact X. }
    assert (BOTH : (a <- extend_to KO CO PO TO (tag_default TO) true (fun c : C => c) u (h x) mx ;; b <- extend_to KO CO PO TO (tag_default TO) true (fun c : C => c) u (h y) my ;; product t a b) = Ok r ->
      exists h', mbind (x_extend_to KO CO PO TO LA x false u mx) (fun _ => mbind (x_extend_to KO CO PO TO LB y false u my) (fun _ => x_mul_identical_ss KO CO PO TO E t LA LB)) h (Some tt) h' /\ h' LR = r).
    { intros HB. destruct (extend_to KO CO PO TO (tag_default TO) true (fun c : C => c) u (h x) mx) as [a| |] eqn:EA; cbn [bind] in HB; try discriminate.
      destruct (extend_to KO CO PO TO (tag_default TO) true (fun c : C => c) u (h y) my) as [b| |] eqn:EB; cbn [bind] in HB; try discriminate.
      apply (EXT LA x h) in EA as (h1 & A1 & A2 & A3 & A4); auto. rewrite <- (A4 y YA) in EB. apply (EXT LB y h1) in EB as (h2 & B1 & B2 & B3 & B4); auto; try (rewrite A4; auto; fail).
      rewrite <- B2, <- A2, <- (B4 LA) in HB by discriminate. apply identical_run in HB as (h' & X & R); try discriminate; [|rewrite B4 by discriminate; rewrite A2; exact A3]. exists h'. split; [|exact R]. eapply bind_run; [exact A1|]. eapply bind_run; [exact B1|exact X]. }
    destruct (map_empty mx) eqn:EX, (map_empty my) eqn:EY.
    + apply BOTH in H as (h' & X & R). exists h'. split; [apply GO, X|exact R].
    + clear BOTH. destruct (extend_to KO CO PO TO (tag_default TO) true (fun c : C => c) u (h y) my) as [b| |] eqn:EB; cbn [bind] in H; try discriminate.
      apply (EXT LB y h) in EB as (h1 & A1 & A2 & A3 & A4); auto. rewrite <- A2, <- (A4 x XB) in H. apply identical_run in H as (h' & X & R); auto; try discriminate; [|rewrite A4; auto]. exists h'. split; [apply GO; eapply bind_run; [exact A1|exact X]|exact R].
    + clear BOTH. destruct (extend_to KO CO PO TO (tag_default TO) true (fun c : C => c) u (h x) mx) as [a| |] eqn:EA; cbn [bind] in H; try discriminate.
      apply (EXT LA x h) in EA as (h1 & A1 & A2 & A3 & A4); auto. rewrite <- A2, <- (A4 y YA) in H. apply identical_run in H as (h' & X & R); auto; try discriminate; [|rewrite A2; exact A3]. exists h'. split; [apply GO; eapply bind_run; [exact A1|exact X]|exact R].
    + apply BOTH in H as (h' & X & R). exists h'. split; [apply GO, X|exact R].
Qed.

Context (sel : string -> bool) (lim : Z).
(** The conditions of C34 (products) and C36 (truncated products: what the truncation does is right for the merged symbol set). *)
Notation limit_ok tr x y := (forall u, union_of (s_ss x) (s_ss y) u -> match tr with None => True | Some tr' => trunc_exact KS sel lim u tr' end).
Lemma switch_not_ub t (x y : series) : env_ok KO KS E -> WF x -> WF y -> bounded x y -> limit_ok t x y -> poly_mul_switch KO CO PO TO E t x y <> UB.
Proof.
  intros EO WX WY B TE. destruct (switch_ok KO KS CO PO TO E KL CL EO sel lim t x y WX WY B TE) as (u & _ & [(r & R & _)|([R|R] & _)]); rewrite R; discriminate.
Qed.

(** C103. x * y and truncated products, interrupted anywhere or not: the operands are unchanged; without an exception the result is that of [poly_mul_switch] (C34, C36); with one,
    each object the call had made (the extended copies, the unfinished product) is valid when it is destroyed, and the product was emptied. *)
Theorem mul_exceptions : forall t y h o h', env_ok KO KS E -> y = LX \/ y = LY -> WF (h LX) -> WF (h LY) -> bounded (h LX) (h y) -> limit_ok t (h LX) (h y) ->
  x_mul KO CO PO TO E t y h o h' ->
  match o with
  | Some _ => poly_mul_switch KO CO PO TO E t (h LX) (h y) = Ok (h' LR)
  | None => h' LR = h LR \/ terms (h' LR) = []
  end /\ h' LX = h LX /\ h' LY = h LY /\ (forall l, h' l = h l \/ (WF (h' l) /\ INV (h' l))).
Proof.
  intros t y h o h' EO HY WX WY B TE H. assert (Wy : WF (h y)) by (destruct HY as [->| ->]; auto). pose proof (switch_not_ub t (h LX) (h y) EO WX Wy B TE) as NU.
  destruct (switch_ok KO KS CO PO TO E KL CL EO sel lim t (h LX) (h y) WX Wy B TE) as (u & _ & SW).
  assert (MAIN : h' LX = h LX /\ h' LY = h LY /\ kept h h' LA /\ kept h h' LB /\ ((o = Some tt /\ poly_mul_switch KO CO PO TO E t (h LX) (h y) = Ok (h' LR)) \/ (o = None /\ (h' LR = h LR \/ (WF (h' LR) /\ terms (h' LR) = []))))).
  { unfold x_mul in H. apply rd_inv in H. apply rd_inv in H. unfold poly_mul_switch in *. destruct (series_size (h LX) <=? series_size (h y))%nat.
    - apply impl_inv in H; auto.
    - apply impl_inv in H; auto. rewrite Nat.add_comm. exact B. }
  destruct MAIN as (M1 & M2 & M3 & M4 & M5). pose proof (fun s : series => wf_invariants KO KS CO KL s) as WI.
  split; [destruct M5 as [(-> & M5)|(-> & [M5|(_ & M5)])]; auto|]. split; [exact M1|]. split; [exact M2|].
  intros [| | | |]; auto; try (destruct M3 as [M3|M3]; auto; fail); try (destruct M4 as [M4|M4]; auto; fail).
  destruct M5 as [(_ & M5)|(_ & [M5|(M5 & _)])]; auto. right. destruct SW as [(r & ER & WR & _)|([ER|ER] & _)]; [|congruence|congruence]. assert (r = h' LR) as <- by congruence. auto.
Qed.
(** There are runs without exceptions. *)
Theorem mul_runs : forall t y (h : store) r, y = LX \/ y = LY -> WF (h LX) -> WF (h LY) -> bounded (h LX) (h y) ->
  poly_mul_switch KO CO PO TO E t (h LX) (h y) = Ok r -> exists h', x_mul KO CO PO TO E t y h (Some tt) h' /\ h' LR = r.
Proof.
  intros t y h r HY WX WY B H. assert (Wy : WF (h y)) by (destruct HY as [->| ->]; auto). unfold poly_mul_switch in H. unfold x_mul.
  destruct (series_size (h LX) <=? series_size (h y))%nat eqn:ES; apply impl_run in H as (h' & X & R); auto; try (rewrite Nat.add_comm; exact B); (exists h'; split; [apply rd_run, rd_run; rewrite ES; exact X|exact R]).
Qed.
End PM.
Print Assumptions mul_exceptions.
Print Assumptions mul_runs.

(** ** Examples: the product of C34 by both algorithms, and an exception in the middle of a multiplication of terms: the coefficients' product throws when the new element is
    there already, with a zero coefficient: this is what the catch block is for. *)
Definition ex_st : @store Z Z Z := fun l => match l with LY => ex_y | _ => ex_x end.
Definition ex_p : (Z * Z) * (Z * Z) := ((exk [1; 0], 2), (exk [0; 1], 3)).
Example ex_mul_interrupted :
  (forall mt lg, (mt, lg) = (false, 0%nat) \/ (mt, lg) = (true, 3%nat) -> exists h', x_mul exK Z_cf exP Z_tag (exE mt lg) None LY ex_st (Some tt) h' /\
     coef exS Z_cf ["a"; "b"; "c"]%string (h' LR) [1; 1; 0] = -31 /\ h' LX = ex_x) /\
  (exists t', x_accumulate exK Z_cf exP ["a"; "b"]%string ex_p [] None t' /\ In (exk [1; 1], 0) t').
Proof.
  split.
  - intros mt lg HM.
    assert (R : exists r, poly_mul_switch exK Z_cf exP Z_tag (exE mt lg) None (ex_st LX) (ex_st LY) = Ok r /\ coef exS Z_cf ["a"; "b"; "c"]%string r [1; 1; 0] = -31).
    { destruct HM as [HM|HM]; injection HM as -> ->; (eexists; split; [vm_compute; reflexivity|vm_compute; reflexivity]). }
    destruct R as (r & ER & EC). pose proof (proj1 ex_x_wf) as WX. pose proof (proj1 ex_y_wf) as WY.
    assert (B : Z.of_nat (len (s_ss (ex_st LX)) + len (s_ss (ex_st LY))) <= imax size_t) by (vm_compute; discriminate).
    destruct (mul_runs exK exS Z_cf exP Z_tag (exE mt lg) exK_laws Z_cf_laws None LY ex_st r (or_intror eq_refl) WX WY B ER) as (h' & X & R). exists h'. split; [exact X|].
    rewrite R. split; [exact EC|].
    apply (mul_exceptions exK exS Z_cf exP Z_tag (exE mt lg) exK_laws Z_cf_laws (fun _ => true) 0 None LY ex_st _ h' (exE_ok mt lg) (or_intror eq_refl) WX WY B) in X; [apply X|intros; exact I].
  - exists [(exk [1; 1], 0)]. split; [|left; reflexivity]. unfold x_accumulate, ex_p. apply call_some.
    eapply (bind_run _ _ [] (exk [1; 1]) []). { unfold mres. replace (k_mul exK (exk [1; 0]) (exk [0; 1]) ["a"; "b"]%string) with (Ok (exk [1; 1])) by (vm_compute; reflexivity). split; reflexivity. }
    eapply (bind_run _ _ [] true [(exk [1; 1], 0)]). { unfold default_emplace. cbn [tbl_find find]. left. split; [reflexivity|]. exists 0. vm_compute. reflexivity. }
    right. split; [reflexivity|]. split; [reflexivity|right; reflexivity].
Qed.
