(** The computations of ExnModel.v can also end normally: every outcome of the model without exceptions is the outcome of a run. *)
From Coq Require Import ZArith List Bool String Arith Sorted Permutation Lia.
From Verif Require Import Base KpackModel KpackSpec KpackProofs P_Kpack IntModel IntSpec IntProofs SymModel SymSpec SymProofs P_Sym PMonModel PMonSpec PMonProofs KeyOps
  SeriesModel SeriesModel2 SeriesSpec SeriesProofs SeriesProofs2 SeriesProofs3 SeriesProofs4 SeriesProofs5 SeriesProofs6 CfInst P_Series P_Series2 PolyModel PolyModel2 SerModel SerSpec P_Ser P_Inv ExnModel ExnProofs ExnProofs2 P_Exn.
Import ListNotations.
Open Scope Z_scope.
Open Scope res_scope.
Local Notation len := List.length.

Section RUN.
Context {K C Tag : Type} (KO : key_ops K) (KS : key_sem K) (CO : cf_ops C) (PO : tbl_policy (K * C)) (TO : tag_ops Tag).
Context (KL : key_laws KO KS) (CL : cf_laws CO).
Notation series := (series K C Tag).
Notation WF := (wf KO KS CO).
Notation store := (@store K C Tag).
Notation bounded x y := (Z.of_nat (len (s_ss x) + len (s_ss y)) <= imax size_t).

Lemma bind_run {S A B} (m : M S A) (f : A -> M S B) s a s1 o s' : m s (Some a) s1 -> f a s1 o s' -> mbind m f s o s'. Proof. intros. left. eauto. Qed.
Lemma rd_run {B} l (f : series -> M store B) h o h' : f (h l) h o h' -> mbind (rd_loc l) f h o h'. Proof. intros H. eapply bind_run; [split; reflexivity|exact H]. Qed.
Lemma wr_run {B} l s (f : unit -> M store B) h o h' : f tt (upd h l s) o h' -> mbind (wr_loc l s) f h o h'. Proof. intros H. eapply bind_run; [split; reflexivity|exact H]. Qed.
Lemma mv_run {B} t l (f : unit -> M store B) h o h' : f tt (upd (upd h t (h l)) l (moved_from (h l))) o h' -> mbind (mv_loc t l) f h o h'. Proof. intros H. eapply bind_run; [split; reflexivity|exact H]. Qed.
Lemma cp_run {B} t l (f : unit -> M store B) h o h' : f tt (upd h t (h l)) o h' -> mbind (cp_loc t l) f h o h'.
Proof. intros H. eapply bind_run; [|exact H]. apply call_some. apply rd_run. split; reflexivity. Qed.



Lemma step_run dst src rv k (m : M series unit) (h : store) s' : dst <> src -> m (h dst) (Some tt) s' -> exists h', mfinally (on dst m) (scribbled KO rv src k) h (Some tt) h' /\ h' dst = s'.
Proof.
  intros N H. set (h1 := upd h dst s'). destruct rv.
  - exists (upd h1 src (set_tables (h1 src) (map (fun t => tbl_update KO t k (fun _ => c_zero CO)) (s_tables (h1 src))))). split; [|rewrite upd_other by auto; apply upd_same].
    exists h1. split; [exists s'; split; [exact H|reflexivity]|]. exists (c_zero CO). reflexivity.
  - exists h1. split; [|apply upd_same]. exists h1. split; [exists s'; split; [exact H|reflexivity]|reflexivity].
Qed.
Lemma loop_run (step : K * C -> M store unit) (f : series -> K * C -> res series) (I : series -> Prop) (dst : loc) : forall l (h : store) r,
  (forall e a b, In e l -> I a -> f a e = Ok b -> I b /\ forall g : store, g dst = a -> exists g', step e g (Some tt) g' /\ g' dst = b) ->
  I (h dst) -> rfold f l (h dst) = Ok r -> exists h', mfor l step h (Some tt) h' /\ h' dst = r.
Proof.
  induction l as [|e l IH]; intros h r HS HI H; cbn [rfold] in H.
  - injection H as <-. exists h. split; [split; reflexivity|reflexivity].
  - destruct (f (h dst) e) as [b| |] eqn:E; cbn [bind] in H; try discriminate. destruct (HS e (h dst) b (or_introl eq_refl) HI E) as [HB HS1]. destruct (HS1 h eq_refl) as (g & S1 & <-).
    destruct (IH g r) as (h' & S2 & R); auto; [intros e' a b J; apply HS; right; exact J|]. exists h'. split; [|exact R]. cbn [mfor]. eapply bind_run; eauto.
Qed.
Lemma single_run sign cz cc au k c (s s' : series) ss l : len (s_tables s) = 1%nat -> s_ss s = ss -> s_log2 s = l -> series_add_term KO CO PO sign cz cc true au s k c = Ok s' ->
  on_table 0 (x_add_term_table KO CO PO sign cz cc false au ss (max_table_size l) k c) s (Some tt) s'.
Proof.
  intros L1 <- <- H. unfold series_add_term, table_index in H. rewrite L1 in H. cbn [Nat.eqb negb andb] in H. unfold rd in H. unfold on_table. destruct (nth_error (s_tables s) 0) as [t|] eqn:ET; cbn [bind] in H; [|discriminate].
  match type of H with bind ?r _ = _ => destruct r as [t'| |] eqn:E; cbn [bind] in H; try discriminate end. injection H as <-. exists t'. split; [apply (x_table_some KO CO PO); exact E|reflexivity].
Qed.
Lemma single_keeps sign cz cc cs au k c (s s' : series) : series_add_term KO CO PO sign cz cc cs au s k c = Ok s' -> len (s_tables s) = 1%nat -> s_ss s' = s_ss s /\ s_log2 s' = s_log2 s /\ len (s_tables s') = 1%nat.
Proof.
  intros H L1. unfold series_add_term, rd in H. cbv zeta in H. destruct (nth_error (s_tables s) _) as [t|] eqn:ET; cbn [bind] in H; [|discriminate].
  match type of H with bind ?r _ = _ => destruct r as [t'| |] eqn:E; cbn [bind] in H; try discriminate end. injection H as <-. split; [reflexivity|]. split; [reflexivity|]. rewrite (put_len s _ t t' ET). exact L1.
Qed.

Lemma merge_loop_run sign dst src rv (h : store) r : dst <> src -> WF (h dst) -> add_all KO CO PO sign (fun c : C => c) (h dst) (terms (h src)) = Ok r ->
  exists h', x_merge_loop KO CO PO sign dst src rv h (Some tt) h' /\ h' dst = r.
Proof.
  intros N W H. unfold add_all in H. cut (exists h', (if (1 <? len (s_tables (h dst)))%nat then mfor (terms (h src)) (fun e => mfinally (on dst (x_add_term KO CO PO sign true false true false (fst e) (snd e))) (scribbled KO rv src (fst e)))
    else mfor (terms (h src)) (fun e => mfinally (on dst (on_table 0 (x_add_term_table KO CO PO sign true false false false (s_ss (h dst)) (max_table_size (s_log2 (h dst))) (fst e) (snd e)))) (scribbled KO rv src (fst e)))) h (Some tt) h' /\ h' dst = r).
  { intros (h' & A & B). exists h'. split; [|exact B]. unfold x_merge_loop. apply rd_run, rd_run. destruct (1 <? len (s_tables (h dst)))%nat; exact A. }
  destruct (1 <? len (s_tables (h dst)))%nat eqn:E1.
  - apply (loop_run _ (fun s e => series_add_term KO CO PO sign true false true false s (fst e) (snd e)) (fun _ => True)); auto.
    intros e a b _ _ E. split; [exact I|]. intros g <-. apply step_run; [exact N|]. apply (x_term_some KO CO PO). exact E.
  - destruct (wf_one_table KO KS CO (h dst) W E1) as (L0 & t & Et).
    assert (OT : forall l, (t0 <- rd (s_tables (h dst)) 0 ;; t' <- add_terms_table KO CO PO sign true false false false (fun c : C => c) (s_ss (h dst)) (max_table_size (s_log2 (h dst))) l t0 ;; Ok (put_table (h dst) 0 t')) =
      add_terms KO CO PO sign true false true false (fun c : C => c) l (h dst)). { intros l. rewrite Et at 1. cbn [rd nth_error bind]. apply one_table. exact Et. }
    rewrite OT in H.
    apply (loop_run _ (fun s e => series_add_term KO CO PO sign true false true false s (fst e) (snd e)) (fun s => len (s_tables s) = 1%nat /\ s_ss s = s_ss (h dst) /\ s_log2 s = s_log2 (h dst))); auto.
    + intros e a b _ (A1 & A2 & A3) E. destruct (single_keeps _ _ _ _ _ _ _ _ _ E A1) as (B1 & B2 & B3). split; [split; [exact B3|split; congruence]|]. intros g <-. apply step_run; [exact N|]. apply single_run; auto.
    + rewrite Et. auto.
Qed.
Lemma in_place_same_run sign lhs rhs rv (h : store) r : lhs <> rhs -> WF (h lhs) -> in_place_with_identical_ss KO CO PO sign (fun c : C => c) (h lhs) false (h rhs) = Ok r ->
  exists h', x_in_place_same KO CO PO TO sign lhs rhs rv h (Some tt) h' /\ h' lhs = r.
Proof.
  intros N W H. destruct (merge_loop_run sign lhs rhs rv h r N W H) as (h1 & A & B). destruct rv.
  - exists (upd h1 rhs (series_clear TO (h1 rhs))). split; [|rewrite upd_other; auto]. exists h1. split; [exact A|reflexivity].
  - exists h1. split; [|exact B]. exists h1. split; [exact A|reflexivity].
Qed.
Lemma extend_run to from rv u m (h : store) r : to <> from -> WF (h from) -> extend_to KO CO PO TO (tag_default TO) true (fun c : C => c) u (h from) m = Ok r ->
  exists h', x_extend_to KO CO PO TO to from rv u m h (Some tt) h' /\ h' to = r.
Proof.
  intros N W H. rewrite (extend_rfold KO KS CO PO TO) in H by exact W.
  set (h0 := upd h to (Series [[]] 0 (tag_default TO) u)). assert (H0f : h0 from = h from) by (unfold h0; rewrite upd_other; auto). assert (H0t : h0 to = Series [[]] 0 (tag_default TO) u) by (unfold h0; apply upd_same).
  set (t0 := Series (repeat [] (2 ^ s_log2 (h from))) (s_log2 (h from)) (tag_default TO) u) in *. set (h2 := upd h0 to t0). assert (H2t : h2 to = t0) by (unfold h2; apply upd_same).
  assert (MAIN : exists h1, (if Nat.eqb (s_log2 (h from)) 0 then mbind (mres (rd (s_tables (h from)) 0)) (fun f_t => mfor f_t (fun e => mbind mcall (fun _ => mbind (mres (k_merge KO (fst e) m (s_ss (h from)))) (fun k =>
        mfinally (on to (on_table 0 (x_add_term_table KO CO PO true true false false true u (max_table_size (s_log2 t0)) k (snd e)))) (scribbled KO rv from (fst e)))))) else
      mfor (terms (h from)) (fun e => mbind mcall (fun _ => mbind (mres (k_merge KO (fst e) m (s_ss (h from)))) (fun k =>
        mfinally (on to (x_add_term KO CO PO true true false true true k (snd e))) (scribbled KO rv from (fst e)))))) h2 (Some tt) h1 /\ h1 to = r).
  { rewrite <- H2t in H. destruct (Nat.eqb_spec (s_log2 (h from)) 0) as [L0|L0].
    - assert (ST : shaped (h from)) by (apply (wf_shaped KO KS CO); exact W). unfold shaped in ST. rewrite L0 in ST. cbn in ST. unfold terms in H. destruct (s_tables (h from)) as [|ft [|? ?]] eqn:Ef; try discriminate. cbn [List.concat rd nth_error] in *. rewrite app_nil_r in H.
      eapply (loop_run (fun e => mbind mcall (fun _ => mbind (mres (k_merge KO (fst e) m (s_ss (h from)))) (fun k =>
        mfinally (on to (on_table 0 (x_add_term_table KO CO PO true true false false true u (max_table_size (s_log2 t0)) k (snd e)))) (scribbled KO rv from (fst e))))) _ (fun s => len (s_tables s) = 1%nat /\ s_ss s = u /\ s_log2 s = 0%nat)) in H as (h1 & A & B).
      + exists h1. split; [|exact B]. eapply bind_run; [split; reflexivity|exact A].
      + intros e a b _ (A1 & A2 & A3) E. destruct (k_merge KO (fst e) m (s_ss (h from))) as [k| |] eqn:EK; cbn [bind] in E; try discriminate. destruct (single_keeps _ _ _ _ _ _ _ _ _ E A1) as (B1 & B2 & B3). split; [split; [exact B3|split; congruence]|]. intros g <-.
        destruct (step_run to from rv (fst e) (on_table 0 (x_add_term_table KO CO PO true true false false true u (max_table_size (s_log2 t0)) k (snd e))) g b N) as (g' & X & Y); [unfold t0; cbn [s_log2]; apply single_run; auto; congruence|].
        exists g'. split; [|exact Y]. apply call_some. eapply bind_run; [split; reflexivity|exact X].
      + rewrite H2t. unfold t0. rewrite L0. auto.
    - eapply (loop_run (fun e => mbind mcall (fun _ => mbind (mres (k_merge KO (fst e) m (s_ss (h from)))) (fun k =>
        mfinally (on to (x_add_term KO CO PO true true false true true k (snd e))) (scribbled KO rv from (fst e))))) _ (fun _ => True)) in H as (h1 & A & B); [exists h1; auto| |exact I].
      intros e a b _ _ E. split; [exact I|]. intros g <-. destruct (k_merge KO (fst e) m (s_ss (h from))) as [k| |] eqn:EK; cbn [bind] in E; try discriminate.
      destruct (step_run to from rv (fst e) (x_add_term KO CO PO true true false true true k (snd e)) g b N) as (g' & X & Y); [apply (x_term_some KO CO PO); exact E|].
      exists g'. split; [|exact Y]. apply call_some. eapply bind_run; [split; reflexivity|exact X]. }
  destruct MAIN as (h1 & A & B). set (h' := if rv then upd h1 from (series_clear TO (h1 from)) else h1).
  exists h'. split; [|unfold h'; destruct rv; [rewrite upd_other|]; auto].
  unfold x_extend_to. apply call_some. apply (res_some _ _ _ _ _ (Series [[]] 0 (tag_default TO) u) eq_refl). apply wr_run. fold h0. exists h1. split; [|unfold h'; destruct rv; reflexivity].
  apply rd_run, rd_run. rewrite H0f, H0t. unfold get_s_size, set_n_segments. pose proof (wf_log2 _ _ _ _ W) as L. replace (max_log2_size <? s_log2 (h from))%nat with false by (symmetry; apply Nat.ltb_ge; exact L).
  eapply res_some; [reflexivity|]. apply call_some. apply wr_run. apply call_some. exact A.
Qed.

(** Every result of x += y and x -= y is that of a run. *)
Theorem in_place_runs : forall sign y rx ry (h : store) r, y = LX \/ y = LY -> WF (h LX) -> WF (h LY) -> bounded (h LX) (h y) ->
  series_in_place_addsub KO CO PO CO PO TO sign (fun c => c) (h LX) (loc_eqb LX y) (h y) = Ok r -> exists h', x_in_place_addsub KO CO PO TO sign y rx ry h (Some tt) h' /\ h' LX = r.
Proof.
  intros sign y rx ry h r HY WX WY B H. unfold series_in_place_addsub in H. unfold x_in_place_addsub.
  destruct (ss_eqb (s_ss (h LX)) (s_ss (h y))) eqn:ES.
  - destruct HY as [->| ->]; cbn [loc_eqb] in *.
    + destruct (in_place_same_run sign LX LB true (upd h LB (h LX)) r) as (h' & A & E); auto; [discriminate|]. exists h'. split; [|exact E]. apply rd_run, rd_run. rewrite ES. apply cp_run. exact A.
    + destruct (in_place_same_run sign LX LY ry h r) as (h' & A & E); auto; [discriminate|]. exists h'. split; [|exact E]. apply rd_run, rd_run. rewrite ES. exact A.
  - assert (y = LY) as ->. { destruct HY as [->| ->]; auto. rewrite (proj2 (ss_eqb_iff _ _) eq_refl) in ES. discriminate. } cbn [loc_eqb] in *.
    destruct (merge_symbol_sets_exact (s_ss (h LX)) (s_ss (h LY)) (wf_ss _ _ _ _ WX) (wf_ss _ _ _ _ WY) B) as (u & mx & my & EM & SU & IU & IX & IY & MX & MY & _).
    rewrite EM in H. cbn [bind] in H.
    match goal with |- exists h', ?m h (Some tt) h' /\ _ =>
      enough (GO : exists h', (match map_empty mx, map_empty my with
      | true, false => mbind (x_extend_to KO CO PO TO LB LY ry u my) (fun _ => x_in_place_same KO CO PO TO sign LX LB true)
      | false, true => mbind (x_extend_to KO CO PO TO LA LX rx u mx) (fun _ => mbind (mv_loc LX LA) (fun _ => x_in_place_same KO CO PO TO sign LX LY ry))
      | false, false => mbind (x_extend_to KO CO PO TO LA LX rx u mx) (fun _ => mbind (x_extend_to KO CO PO TO LB LY ry u my) (fun _ => mbind (mv_loc LX LA) (fun _ => x_in_place_same KO CO PO TO sign LX LB true)))
      | true, true => mret tt end) h (Some tt) h' /\ h' LX = r) end.
    { destruct GO as (h' & A & E). exists h'. split; [|exact E]. apply rd_run, rd_run. rewrite ES. apply call_some. eapply res_some; [exact EM|]. exact A. }
    destruct (map_empty mx) eqn:EX, (map_empty my) eqn:EY.
    + exfalso. destruct mx; [|discriminate]. destruct my; [|discriminate]. rewrite (proj2 (ss_eqb_iff _ _)) in ES; [discriminate|]. exact (eq_trans (eq_trans (eq_sym (insert_nil _ 0)) IX) (eq_sym (eq_trans (eq_sym (insert_nil _ 0)) IY))).
    + destruct (extend_to KO CO PO TO _ true _ u (h LY) my) as [b| |] eqn:EE; cbn [bind] in H; try discriminate.
      destruct (extend_run LB LY ry u my h b ltac:(discriminate) WY EE) as (h1 & A1 & B1). pose proof A1 as A1'. apply (extend_inv KO KS CO PO TO KL) in A1' as (F1 & _); auto; [|discriminate].
      pose proof (F1 LX ltac:(discriminate) ltac:(discriminate)) as X1. destruct (in_place_same_run sign LX LB true h1 r) as (h' & A & E); [discriminate|rewrite X1; exact WX|rewrite X1, B1; exact H|].
      exists h'. split; [|exact E]. eapply bind_run; eauto.
    + destruct (extend_to KO CO PO TO _ true _ u (h LX) mx) as [a| |] eqn:EE; cbn [bind] in H; try discriminate.
      destruct (extend_run LA LX rx u mx h a ltac:(discriminate) WX EE) as (h1 & A1 & B1). pose proof A1 as A1'. apply (ext_out KO KS CO PO TO KL CL) in A1' as (F1 & _ & _ & [(_ & _ & WA & _)|X]); auto; try discriminate.
      set (h2 := upd (upd h1 LX (h1 LA)) LA (moved_from (h1 LA))). pose proof (F1 LY ltac:(discriminate) ltac:(discriminate)) as Y1.
      destruct (in_place_same_run sign LX LY ry h2 r) as (h' & A & E); [discriminate|exact WA| |].
      * change (h2 LX) with (h1 LA). change (h2 LY) with (h1 LY). rewrite B1, Y1. exact H.
      * exists h'. split; [|exact E]. eapply bind_run; [exact A1|]. apply mv_run. exact A.
    + destruct (extend_to KO CO PO TO _ true _ u (h LX) mx) as [a| |] eqn:EE; cbn [bind] in H; try discriminate.
      destruct (extend_to KO CO PO TO _ true _ u (h LY) my) as [b| |] eqn:EE2; cbn [bind] in H; try discriminate.
      destruct (extend_run LA LX rx u mx h a ltac:(discriminate) WX EE) as (h1 & A1 & B1). pose proof A1 as A1'. apply (ext_out KO KS CO PO TO KL CL) in A1' as (F1 & _ & _ & [(_ & _ & WA & _)|X]); auto; try discriminate.
      pose proof (F1 LY ltac:(discriminate) ltac:(discriminate)) as Y1.
      destruct (extend_run LB LY ry u my h1 b) as (h2 & A2 & B2); [discriminate|rewrite Y1; exact WY|rewrite Y1; exact EE2|]. pose proof A2 as A2'. apply (extend_inv KO KS CO PO TO KL) in A2' as (F2 & _); [|discriminate|rewrite Y1; exact WY|rewrite Y1; exact MY].
      pose proof (F2 LA ltac:(discriminate) ltac:(discriminate)) as X2. set (h3 := upd (upd h2 LX (h2 LA)) LA (moved_from (h2 LA))).
      destruct (in_place_same_run sign LX LB true h3 r) as (h' & A & E); [discriminate|change (h3 LX) with (h2 LA); rewrite X2; exact WA| |].
      * change (h3 LX) with (h2 LA). change (h3 LB) with (h2 LB). rewrite X2, B1, B2. exact H.
      * exists h'. split; [|exact E]. eapply bind_run; [exact A1|]. eapply bind_run; [exact A2|]. apply mv_run. exact A.
Qed.

Lemma merger_run sign lhs rl rhs rr (h : store) r : lhs <> LR -> rhs <> LR -> WF (h lhs) -> term_merger KO CO PO sign (fun s : series => Ok s) (fun c : C => c) (h lhs) (h rhs) = Ok r ->
  exists h', x_term_merger KO CO PO TO sign lhs rl rhs rr h (Some tt) h' /\ h' LR = r.
Proof.
  intros NL NR W H. change (add_all KO CO PO sign (fun c : C => c) (h lhs) (terms (h rhs)) = Ok r) in H.
  assert (MAIN : forall h1 : store, h1 LR = h lhs -> h1 rhs = h rhs -> exists h', mfinally (x_merge_loop KO CO PO sign LR rhs rr) (clearer TO rr rhs) h1 (Some tt) h' /\ h' LR = r).
  { intros h1 E1 E2. rewrite <- E1, <- E2 in H. destruct (merge_loop_run sign LR rhs rr h1 r) as (h2 & A & B); auto; [rewrite E1; exact W|]. destruct rr.
    - exists (upd h2 rhs (series_clear TO (h2 rhs))). split; [|rewrite upd_other; auto]. exists h2. split; [exact A|reflexivity].
    - exists h2. split; [|exact B]. exists h2. split; [exact A|reflexivity]. }
  unfold x_term_merger. destruct (rl && negb (loc_eqb lhs rhs)) eqn:E.
  - assert (N : lhs <> rhs) by (intros ->; rewrite (proj2 (loc_eqb_iff rhs rhs) eq_refl), andb_false_r in E; discriminate).
    destruct (MAIN (upd (upd h LR (h lhs)) lhs (moved_from (h lhs)))) as (h' & A & B); [rewrite upd_other, upd_same; auto|rewrite !upd_other; auto|]. exists h'. split; [apply mv_run; exact A|exact B].
  - destruct (MAIN (upd h LR (h lhs))) as (h' & A & B); [apply upd_same|apply upd_other; auto|]. exists h'. split; [apply cp_run; exact A|exact B].
Qed.
Lemma for_progress {S E} (f : E -> M S unit) : forall l s, (forall e s, In e l -> exists s', f e s (Some tt) s') -> exists s', mfor l f s (Some tt) s'.
Proof.
  induction l as [|e l IH]; intros s H; [exists s; split; reflexivity|]. destruct (H e s (or_introl eq_refl)) as (s1 & H1). destruct (IH s1) as (s2 & H2); [intros; apply H; right; auto|]. exists s2. cbn [mfor]. eapply bind_run; eauto.
Qed.
Lemma table_progress {A} i (m : M (table K C) A) a : (forall t, exists t', m t (Some a) t') -> forall s : series, exists s', on_table i m s (Some a) s'.
Proof. intros H s. unfold on_table. destruct (nth_error (s_tables s) i) as [t|]; [|exists s; exact I]. destruct (H t) as (t' & X). eauto. Qed.
Lemma negate_run (s : series) : WF s -> x_negate KO CO s (Some tt) (series_negate CO s).
Proof.
  intros W. assert (exists s', x_negate KO CO s (Some tt) s') as (s' & H).
  { unfold x_negate. destruct (for_progress (fun i => on_table i (mbind mget (fun t : table K C => mfor t (fun e => modify KO (fst e) (c_neg CO))))) (seq 0 (len (s_tables s))) s) as (s' & H).
    - intros i g _. apply table_progress. intros t. destruct (for_progress (fun e : K * C => modify KO (fst e) (c_neg CO)) t t) as (t' & X); [|exists t'; apply get_some; exact X].
      intros e u _. eexists. left. split; reflexivity.
    - exists s'. apply get_some. exact H. }
  pose proof H as H'. apply (negate_exceptions KO KS CO KL) in H'; [|exact W]. rewrite <- H'. exact H.
Qed.
Lemma merge_run sign a ra b rb (h : store) r : a <> LR -> b <> LR -> WF (h a) -> WF (h b) -> s_ss (h b) = s_ss (h a) ->
  merge_with_identical_ss KO CO PO sign (fun s : series => Ok s) (fun c : C => c) (fun s : series => Ok s) (fun c : C => c) (h a) (h b) = Ok r ->
  exists h', x_merge_same KO CO PO TO sign a ra b rb h (Some tt) h' /\ h' LR = r.
Proof.
  intros NA NB WA WB ES H. unfold merge_with_identical_ss in H. unfold x_merge_same.
  enough (X : exists h', (if (series_size (h b) <=? series_size (h a))%nat then x_term_merger KO CO PO TO sign a ra b rb
    else if sign then x_term_merger KO CO PO TO sign b rb a ra else mbind (x_term_merger KO CO PO TO sign b rb a ra) (fun _ => on LR (x_negate KO CO))) h (Some tt) h' /\ h' LR = r).
  { destruct X as (h' & A & B). exists h'. split; [|exact B]. apply rd_run, rd_run. destruct (series_size (h b) <=? series_size (h a))%nat; exact A. }
  destruct (series_size (h b) <=? series_size (h a))%nat; [apply merger_run; auto|]. destruct sign; [apply merger_run; auto|].
  destruct (term_merger KO CO PO false _ _ (h b) (h a)) as [q| |] eqn:E; cbn [bind] in H; try discriminate. injection H as <-.
  destruct (merger_run false b rb a ra h q) as (h1 & A & B); auto. assert (WR : WF (h1 LR)). { apply (merger_out KO KS CO PO TO KL CL) in A as (_ & _ & [(_ & _ & WR)|X]); auto; discriminate. }
  exists (upd h1 LR (series_negate CO (h1 LR))). rewrite upd_same, B. split; [|reflexivity]. eapply bind_run; [exact A|]. exists (series_negate CO q). rewrite B in *. split; [apply negate_run; exact WR|reflexivity].
Qed.
(** Every sum and difference is that of a run. *)
Theorem addsub_runs : forall (sign : bool) y rx ry (h : store) r, y = LX \/ y = LY -> WF (h LX) -> WF (h LY) -> bounded (h LX) (h y) ->
  (if sign then series_add KO CO PO TO (h LX) (h y) else series_sub KO CO PO TO (h LX) (h y)) = Ok r -> exists h', x_addsub KO CO PO TO sign y rx ry h (Some tt) h' /\ h' LR = r.
Proof.
  intros sign y rx ry h r HY WX WY B H. assert (Wy : WF (h y)) by (destruct HY as [->| ->]; auto).
  assert (FUN : (if sign then series_add KO CO PO TO (h LX) (h y) else series_sub KO CO PO TO (h LX) (h y)) = series_addsub KO CO PO TO sign op_same op_same (h LX) (h y)) by (destruct sign; reflexivity).
  rewrite FUN in H. clear FUN. unfold series_addsub in H. cbn [o_mk o_conv o_same op_same] in H. unfold x_addsub.
  destruct (ss_eqb (s_ss (h LX)) (s_ss (h y))) eqn:ES.
  - pose proof (proj1 (ss_eqb_iff _ _) ES) as ES'. destruct (merge_run sign LX rx y ry h r) as (h' & A & E); auto; [discriminate|destruct HY as [->| ->]; discriminate|]. exists h'. split; [|exact E]. apply rd_run, rd_run. rewrite ES. exact A.
  - assert (y = LY) as ->. { destruct HY as [->| ->]; auto. rewrite (proj2 (ss_eqb_iff _ _) eq_refl) in ES. discriminate. }
    destruct (merge_symbol_sets_exact (s_ss (h LX)) (s_ss (h LY)) (wf_ss _ _ _ _ WX) (wf_ss _ _ _ _ WY) B) as (u & mx & my & EM & SU & IU & IX & IY & MX & MY & _).
    rewrite EM in H. cbn [bind] in H.
    assert (BX : mx = [] -> s_ss (h LX) = u) by (intros ->; exact (eq_trans (eq_sym (insert_nil _ 0)) IX)).
    assert (BY : my = [] -> s_ss (h LY) = u) by (intros ->; exact (eq_trans (eq_sym (insert_nil _ 0)) IY)).
    enough (GO : exists h', (match map_empty mx, map_empty my with
      | true, false => mbind (x_extend_to KO CO PO TO LB LY ry u my) (fun _ => x_merge_same KO CO PO TO sign LX rx LB true)
      | false, true => mbind (x_extend_to KO CO PO TO LA LX rx u mx) (fun _ => x_merge_same KO CO PO TO sign LA true LY ry)
      | _, _ => mbind (x_extend_to KO CO PO TO LA LX rx u mx) (fun _ => mbind (x_extend_to KO CO PO TO LB LY ry u my) (fun _ => x_merge_same KO CO PO TO sign LA true LB true))
      end) h (Some tt) h' /\ h' LR = r).
    { destruct GO as (h' & A & E). exists h'. split; [|exact E]. apply rd_run, rd_run. rewrite ES. apply call_some. eapply res_some; [exact EM|]. exact A. }
    destruct (map_empty mx) eqn:EX, (map_empty my) eqn:EY.
    + exfalso. destruct mx; [|discriminate]. destruct my; [|discriminate]. rewrite (proj2 (ss_eqb_iff _ _)) in ES; [discriminate|]. rewrite BX, BY; auto.
    + destruct (extend_to KO CO PO TO _ true _ u (h LY) my) as [b| |] eqn:EE; cbn [bind] in H; try discriminate. assert (SX : s_ss (h LX) = u) by (destruct mx; [auto|discriminate]).
      destruct (extend_run LB LY ry u my h b ltac:(discriminate) WY EE) as (h1 & A1 & B1). pose proof A1 as A1'. apply (ext_out KO KS CO PO TO KL CL) in A1' as (F1 & _ & _ & [(_ & _ & WB & SB & _)|X]); auto; try discriminate.
      pose proof (F1 LX ltac:(discriminate) ltac:(discriminate)) as X1. destruct (merge_run sign LX rx LB true h1 r) as (h' & A & E); [discriminate|discriminate|rewrite X1; exact WX|exact WB|congruence|rewrite X1, B1; exact H|].
      exists h'. split; [|exact E]. eapply bind_run; eauto.
    + destruct (extend_to KO CO PO TO _ true _ u (h LX) mx) as [a| |] eqn:EE; cbn [bind] in H; try discriminate. assert (SY : s_ss (h LY) = u) by (destruct my; [auto|discriminate]).
      destruct (extend_run LA LX rx u mx h a ltac:(discriminate) WX EE) as (h1 & A1 & B1). pose proof A1 as A1'. apply (ext_out KO KS CO PO TO KL CL) in A1' as (F1 & _ & _ & [(_ & _ & WA & SA & _)|X]); auto; try discriminate.
      pose proof (F1 LY ltac:(discriminate) ltac:(discriminate)) as Y1. destruct (merge_run sign LA true LY ry h1 r) as (h' & A & E); [discriminate|discriminate|exact WA|rewrite Y1; exact WY|congruence|rewrite B1, Y1; exact H|].
      exists h'. split; [|exact E]. eapply bind_run; eauto.
    + destruct (extend_to KO CO PO TO _ true _ u (h LX) mx) as [a| |] eqn:EE; cbn [bind] in H; try discriminate.
      destruct (extend_to KO CO PO TO _ true _ u (h LY) my) as [b| |] eqn:EE2; cbn [bind] in H; try discriminate.
      destruct (extend_run LA LX rx u mx h a ltac:(discriminate) WX EE) as (h1 & A1 & B1). pose proof A1 as A1'. apply (ext_out KO KS CO PO TO KL CL) in A1' as (F1 & _ & _ & [(_ & _ & WA & SA & _)|X]); auto; try discriminate.
      pose proof (F1 LY ltac:(discriminate) ltac:(discriminate)) as Y1.
      destruct (extend_run LB LY ry u my h1 b) as (h2 & A2 & B2); [discriminate|rewrite Y1; exact WY|rewrite Y1; exact EE2|]. pose proof A2 as A2'. apply (ext_out KO KS CO PO TO KL CL) in A2' as (F2 & _ & _ & [(_ & _ & WB & SB & _)|X]); try discriminate; try (rewrite Y1; auto; fail); auto.
      pose proof (F2 LA ltac:(discriminate) ltac:(discriminate)) as X2. destruct (merge_run sign LA true LB true h2 r) as (h' & A & E); [discriminate|discriminate|rewrite X2; exact WA|exact WB|congruence|rewrite X2, B1, B2; exact H|].
      exists h'. split; [|exact E]. eapply bind_run; [exact A1|]. eapply bind_run; [exact A2|]. exact A.
Qed.
Lemma tables_run (m : M (table K C) unit) : forall (b a : list (table K C)) (s : series), s_tables s = a ++ b -> (forall t, In t b -> exists t', m t (Some tt) t') -> exists s', mfor (seq (len a) (len b)) (fun i => on_table i m) s (Some tt) s'.
Proof.
  induction b as [|t b IH]; intros a s ET H; [exists s; split; reflexivity|]. destruct (H t (or_introl eq_refl)) as (t' & H1).
  destruct (IH (a ++ [t']) (put_table s (len a) t')) as (s' & H2); [rewrite (set_put s a t b t' ET); cbn [set_tables s_tables]; rewrite <- app_assoc; reflexivity|intros; apply H; right; auto|].
  exists s'. cbn [List.length seq mfor]. eapply bind_run.
  - unfold on_table. rewrite ET, nth_error_app2, Nat.sub_diag by lia. cbn [nth_error]. exists t'. split; [exact H1|reflexivity].
  - rewrite app_length in H2. cbn [List.length] in H2. rewrite Nat.add_1_r in H2. exact H2.
Qed.
(** Every filtered series is that of a run. *)
Theorem filter_runs : forall f (s r : series), WF s -> series_filter_res f s = Ok r -> x_filter KO f s (Some tt) r.
Proof.
  intros f s r W H.
  assert (OKS : forall e, In e (terms s) -> exists b, f e = Ok b).
  { unfold series_filter_res in H. unfold terms. clear W. destruct (rmap (rfilter f) (s_tables s)) as [ts| |] eqn:E; cbn [bind] in H; try discriminate. clear H.
    assert (RF : forall l q, rfilter f l = Ok q -> forall e, In e l -> exists b, f e = Ok b).
    { induction l as [|x l IH]; intros q EQ e J; [destruct J|]. cbn [rfilter] in EQ. destruct (f x) as [b| |] eqn:EF; cbn [bind] in EQ; try discriminate. destruct J as [<-|J]; [eauto|]. destruct (rfilter f l) as [q'| |]; cbn [bind] in EQ; try discriminate. eapply IH; eauto. }
    revert ts E. induction (s_tables s) as [|t l IH]; intros ts E e J; [destruct J|]. cbn [rmap] in E. destruct (rfilter f t) as [q| |] eqn:EQ; cbn [bind] in E; try discriminate. destruct (rmap (rfilter f) l) as [ts'| |]; cbn [bind] in E; try discriminate.
    cbn [List.concat] in J. apply in_app_or in J as [J|J]; eauto. }
  assert (exists s', x_filter KO f s (Some tt) s') as (s' & X).
  { unfold x_filter. match goal with |- exists s', mbind mget (fun s => mfor _ (fun i => on_table i ?m)) s _ s' => destruct (tables_run m (s_tables s) [] s eq_refl) as (s' & X) end.
    - intros t J. match goal with |- exists t', mbind mget (fun t => mfor t ?g) _ _ _ => destruct (for_progress g t t) as (t' & X) end; [|exists t'; apply get_some; exact X].
      intros e u JE. destruct (OKS e) as (b & EB); [unfold terms; apply in_concat; eauto|]. destruct b; (eexists; apply call_some; eapply res_some; [exact EB|]; split; reflexivity).
    - exists s'. apply get_some. exact X. }
  pose proof X as X'. apply (filter_exceptions KO KS CO PO KL) in X' as (X' & _); [|intros e J; destruct (OKS e J); congruence|exact W]. assert (s' = r) as <- by congruence. exact X.
Qed.
(** x * c always has a run without exceptions. *)
Theorem scalar_mul_runs : forall rx c (h : store), WF (h LX) -> exists h', x_scalar_mul KO CO TO rx c h (Some tt) h' /\ h' LR = series_scalar_mul KO CO (h LX) c.
Proof.
  intros rx c h W. enough (X : exists h', x_scalar_mul KO CO TO rx c h (Some tt) h') by (destruct X as (h' & X); exists h'; split; [exact X|]; apply (scalar_mul_exceptions KO KS CO TO KL) in X as (X & _); auto).
  unfold x_scalar_mul. destruct (series_empty (h LX) || c_is_zero CO c) eqn:E.
  - eexists. apply rd_run. apply call_some. rewrite E. apply call_some. split; reflexivity.
  - match goal with |- context [on LR ?m] => assert (P : forall h1 : store, exists h', on LR m h1 (Some tt) h') end.
    { intros h1. match goal with |- exists h', on LR (mtry (mbind mget ?g) _) _ _ _ => destruct (for_progress (fun i => on_table i (mbind mget (fun t : table K C => mbind (mfor t (fun e => mbind (modify KO (fst e) (fun x => c_mul CO x c)) (fun _ => mcall)))
            (fun _ => mbind mget (fun t2 => mfor (filter (fun e => c_is_zero CO (snd e)) t2) (fun e => erase KO (fst e))))))) (seq 0 (len (s_tables (h1 LR)))) (h1 LR)) as (s' & X) end.
      - intros i g _. apply table_progress. intros t. destruct (for_progress (fun e : K * C => mbind (modify KO (fst e) (fun x => c_mul CO x c)) (fun _ => mcall)) t t) as (t1 & X).
        { intros e u _. eexists. eapply bind_run; [left; split; reflexivity|]. split; [reflexivity|auto]. }
        destruct (for_progress (fun e : K * C => erase KO (fst e)) (filter (fun e => c_is_zero CO (snd e)) t1) t1) as (t2 & Y); [intros e u _; eexists; split; reflexivity|].
        exists t2. apply get_some. eapply bind_run; [exact X|]. apply get_some. exact Y.
      - eexists. exists s'. split; [|reflexivity]. left. exists tt. split; [reflexivity|]. apply get_some. exact X. }
    destruct rx.
    + destruct (P (upd (upd h LR (h LX)) LX (moved_from (h LX)))) as (h' & X). exists h'. apply rd_run. apply call_some. rewrite E. apply mv_run. exact X.
    + destruct (P (upd h LR (h LX))) as (h' & X). exists h'. apply rd_run. apply call_some. rewrite E. apply cp_run. exact X.
Qed.
End RUN.
