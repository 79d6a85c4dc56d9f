(** Proofs about ExnModel.v: the steps. *)
From Coq Require Import ZArith List Bool String Arith Sorted Permutation Lia Ring Ring_theory.
From Verif Require Import Base KpackModel KpackSpec KpackProofs P_Kpack IntModel IntSpec IntProofs SymModel SymSpec SymProofs P_Sym PMonModel PMonSpec PMonProofs KeyOps
  SeriesModel SeriesModel2 SeriesSpec SeriesProofs SeriesProofs2 SeriesProofs3 SeriesProofs4 SeriesProofs5 SeriesProofs6 P_Series P_Series2 SerModel SerSpec P_Ser ExnModel.
Import ListNotations.
Open Scope Z_scope.
Open Scope res_scope.
Local Notation len := List.length.

Section Mon.
Context {S : Type}.
Lemma bind_inv {A B} (m : M S A) (f : A -> M S B) s o s' : mbind m f s o s' -> (exists a s1, m s (Some a) s1 /\ f a s1 o s') \/ (o = None /\ m s None s').
Proof. auto. Qed.
Lemma call_inv {B} (f : unit -> M S B) s o s' : mbind mcall f s o s' -> f tt s o s' \/ (o = None /\ s' = s).
Proof. intros [(a & s1 & (-> & _) & H)|(-> & -> & _)]; [destruct a; auto|auto]. Qed.
Lemma get_inv {B} (f : S -> M S B) s o s' : mbind mget f s o s' -> f s s o s'.
Proof. intros [(a & s1 & (E & ->) & H)|(_ & E & _)]; [injection E as ->; exact H|discriminate]. Qed.
Lemma ret_inv {A B} (a : A) (f : A -> M S B) s o s' : mbind (mret a) f s o s' -> f a s o s'.
Proof. intros [(b & s1 & (E & ->) & H)|(_ & E & _)]; [injection E as ->; exact H|discriminate]. Qed.
Lemma res_inv {A B} (r : res A) (f : A -> M S B) s o s' : r <> UB -> mbind (mres r) f s o s' ->
  (exists a, r = Ok a /\ f a s o s') \/ (o = None /\ s' = s /\ exists e, r = Throw e).
Proof.
  intros N. destruct r as [a|e|]; [| |congruence].
  - intros [(b & s1 & (E & ->) & H)|(_ & E & _)]; [injection E as ->; eauto|discriminate].
  - intros [(b & s1 & (E & _) & H)|(-> & _ & ->)]; [discriminate|]. right. eauto.
Qed.
Lemma bind_assoc_some {A B} (m : M S A) (f : A -> M S B) s a s1 o s' : m s (Some a) s1 -> f a s1 o s' -> mbind m f s o s'.
Proof. intros. left. eauto. Qed.
Lemma call_some {B} (f : unit -> M S B) s o s' : f tt s o s' -> mbind mcall f s o s'.
Proof. intros H. left. exists tt, s. split; [split; auto|exact H]. Qed.
Lemma get_some {B} (f : S -> M S B) s o s' : f s s o s' -> mbind mget f s o s'.
Proof. intros H. left. exists s, s. split; [split; auto|exact H]. Qed.
Lemma ret_some {A B} (a : A) (f : A -> M S B) s o s' : f a s o s' -> mbind (mret a) f s o s'.
Proof. intros H. left. exists a, s. split; [split; auto|exact H]. Qed.
Lemma res_some {A B} (r : res A) (f : A -> M S B) s o s' a : r = Ok a -> f a s o s' -> mbind (mres r) f s o s'.
Proof. intros -> H. left. exists a, s. split; [split; auto|exact H]. Qed.
(** A loop: the iterations before the one which throws are complete. *)
Lemma for_inv {E} (l : list E) (f : E -> M S unit) s o s' : mfor l f s o s' ->
  (o = Some tt /\ mfor l f s (Some tt) s') \/ (o = None /\ exists l1 e l2 s1, l = l1 ++ e :: l2 /\ mfor l1 f s (Some tt) s1 /\ f e s1 None s').
Proof.
  revert s. induction l as [|e l IH]; intros s H.
  - destruct H as [-> ->]. left. split; [reflexivity|split; reflexivity].
  - destruct H as [(a & s1 & H1 & H2)|(-> & H1)].
    + destruct a. apply IH in H2 as [(-> & H2)|(-> & l1 & e' & l2 & s2 & -> & H2 & H3)].
      * left. split; [reflexivity|]. left. exists tt, s1. auto.
      * right. split; [reflexivity|]. exists (e :: l1), e', l2, s2. split; [reflexivity|]. split; [|exact H3]. left. exists tt, s1. auto.
    + right. split; [reflexivity|]. exists [], e, l, s. split; [reflexivity|]. split; [split; reflexivity|exact H1].
Qed.
Lemma for_cons {E} (e : E) l (f : E -> M S unit) s s' : mfor (e :: l) f s (Some tt) s' -> exists s1, f e s (Some tt) s1 /\ mfor l f s1 (Some tt) s'.
Proof. intros [(a & s1 & H1 & H2)|(E0 & _)]; [destruct a; eauto|discriminate]. Qed.
End Mon.

Section XP.
Context {K C Tag : Type} (KO : key_ops K) (KS : key_sem K) (CO : cf_ops C) (PO : tbl_policy (K * C)) (TO : tag_ops Tag).
Context (KL : key_laws KO KS) (CL : cf_laws CO).
Notation series := (series K C Tag).
Notation WF := (wf KO KS CO).

Lemma x_table_inv sign cz cc cs au ss mts k c t o t' :
  x_add_term_table KO CO PO sign cz cc cs au ss mts k c t o t' ->
  (o = Some tt /\ series_add_term_table KO CO PO sign cz cc cs au ss mts t k c = Ok t') \/ (o = None /\ (t' = t \/ t' = [])).
Proof.
  intros H. assert (NU : k_compatible KO k ss <> UB) by (destruct (kl_compat _ _ KL k ss) as (b & E & _); congruence). unfold x_add_term_table in H. apply get_inv in H. unfold series_add_term_table.
  destruct (cs && (Z.of_nat (len t) =? mts)) eqn:ES; [destruct H as [-> ->]; auto|].
  assert (H' : (exists b, (if cc then k_compatible KO k ss else Ok true) = Ok b /\
     (if negb b then mraise else
      mbind (try_emplace KO PO k c) (fun inserted => mtry
        (mbind (if au || inserted then (if sign then mret tt else modify KO k (c_neg CO)) else mbind mcall (fun _ => modify KO k (fun x => if sign then c_add CO x c else c_sub CO x c)))
          (fun _ => if cz then mbind mcall (fun _ => mbind mget (fun t2 => if k_is_zero KO k ss || match tbl_find KO t2 k with Some e => c_is_zero CO (snd e) | None => false end then erase KO k else mret tt)) else mret tt))
        (fun _ => []))) t o t') \/ (o = None /\ t' = t)).
  { destruct cc.
    - apply bind_inv in H as [(a & s1 & H1 & H2)|(-> & H1)].
      + apply call_inv in H1 as [H1|(E & _)]; [|discriminate]. unfold mres in H1. destruct (k_compatible KO k ss) as [b|e|] eqn:EC; [|destruct H1; discriminate|congruence]. destruct H1 as [E ->]. injection E as ->. left. exists b. auto.
      + right. split; [reflexivity|]. apply call_inv in H1 as [H1|(_ & ->)]; [|reflexivity]. unfold mres in H1. destruct (k_compatible KO k ss) as [b|e|] eqn:EC; [destruct H1; discriminate|destruct H1; auto|congruence].
    - apply ret_inv in H. left. exists true. auto. }
  clear H. destruct H' as [(b & EB & H)|(-> & ->)]; [|auto]. rewrite EB. cbn [bind]. destruct b; cbn [negb] in *; [|destruct H as [-> ->]; auto].
  apply bind_inv in H as [(ins & t1 & H1 & H)|(-> & [[E _]|[_ ->]])]; [|discriminate|auto].
  destruct H1 as [[EI ->]|[E _]]; [|discriminate]. injection EI as ->. destruct (tbl_try_emplace KO PO t k c) as [t1 ins]. cbn [fst snd] in *.
  destruct H as [(a & -> & H)|(-> & s1 & _ & ->)]; [|auto]. left. destruct a. split; [reflexivity|].
  apply bind_inv in H as [(a & t2 & H1 & H)|(E & _)]; [|discriminate]. destruct a.
  assert (E2 : t2 = (if au || ins then (if sign then t1 else tbl_update KO t1 k (c_neg CO)) else tbl_update KO t1 k (fun x => if sign then c_add CO x c else c_sub CO x c))).
  { destruct (au || ins); [destruct sign|].
    - destruct H1; auto.
    - destruct H1 as [[_ ->]|[E _]]; [reflexivity|discriminate].
    - apply call_inv in H1 as [[[_ ->]|[E _]]|[E _]]; [reflexivity|discriminate|discriminate]. }
  rewrite <- E2. destruct cz; cbn [andb].
  - apply call_inv in H as [H|(E & _)]; [|discriminate]. apply get_inv in H.
    destruct (k_is_zero KO k ss || match tbl_find KO t2 k with Some e => c_is_zero CO (snd e) | None => false end); destruct H as [_ ->]; reflexivity.
  - destruct H as [_ ->]. reflexivity.
Qed.
Lemma x_table_some sign cz cc cs au ss mts k c t t' : series_add_term_table KO CO PO sign cz cc cs au ss mts t k c = Ok t' ->
  x_add_term_table KO CO PO sign cz cc cs au ss mts k c t (Some tt) t'.
Proof.
  intros H. unfold x_add_term_table. apply get_some. unfold series_add_term_table in H. destruct (cs && (Z.of_nat (len t) =? mts)); [discriminate|].
  destruct (if cc then k_compatible KO k ss else Ok true) as [b| |] eqn:EB; cbn [bind] in H; try discriminate. destruct b; cbn [negb] in H; [|discriminate].
  eapply (bind_assoc_some _ _ t true t). { destruct cc; [apply call_some; unfold mres; rewrite EB; split; reflexivity|split; reflexivity]. }
  cbn [negb]. destruct (tbl_try_emplace KO PO t k c) as [t1 ins] eqn:ET. eapply (bind_assoc_some _ _ t ins t1). { left. rewrite ET. auto. }
  left. exists tt. split; [reflexivity|]. cbv zeta in H. injection H as H.
  set (t2 := if au || ins then (if sign then t1 else tbl_update KO t1 k (c_neg CO)) else tbl_update KO t1 k (fun x => if sign then c_add CO x c else c_sub CO x c)) in *.
  eapply (bind_assoc_some _ _ t1 tt t2).
  - unfold t2. destruct (au || ins); [destruct sign; [split; reflexivity|left; auto]|apply call_some; left; auto].
  - destruct cz; cbn [andb] in H; [|split; auto]. apply call_some, get_some.
    destruct (k_is_zero KO k ss || match tbl_find KO t2 k with Some e => c_is_zero CO (snd e) | None => false end); split; auto.
Qed.


Definition shaped (s : series) : Prop := len (s_tables s) = (2 ^ s_log2 s)%nat.
Lemma wf_shaped s : WF s -> shaped s. Proof. intros W. apply wf_iff in W. apply W. Qed.
Lemma put_same (s : series) i t : nth_error (s_tables s) i = Some t -> put_table s i t = s.
Proof. intros H. destruct (concat_split _ _ _ H) as (a & b & E & L). destruct s as [ts l tg ss]. unfold put_table, set_tables in *. cbn [s_tables s_log2 s_tag s_ss] in *. f_equal. rewrite E, <- L. apply put_split. Qed.
Lemma put_len (s : series) i t t' : nth_error (s_tables s) i = Some t -> len (s_tables (put_table s i t')) = len (s_tables s).
Proof. intros H. destruct (concat_split _ _ _ H) as (a & b & E & L). rewrite (tables_put s i t t' a b E L), E, !app_length. reflexivity. Qed.
Lemma put_shaped (s : series) i t t' : nth_error (s_tables s) i = Some t -> shaped s -> shaped (put_table s i t').
Proof. intros H S. unfold shaped. rewrite (put_len s i t t' H). exact S. Qed.

(** What an interrupted insertion leaves: the series as it was, or with one table cleared. *)
Definition lost (s s' : series) : Prop := s' = s \/ exists i t, nth_error (s_tables s) i = Some t /\ s' = put_table s i [].
Lemma thin_ok (s : series) i t t' : WF s -> nth_error (s_tables s) i = Some t -> incl t' t -> NoDup (map fst t') -> (len t' <= len t)%nat ->
  WF (put_table s i t') /\ incl (terms (put_table s i t')) (terms s) /\ same_meta s (put_table s i t').
Proof.
  intros W Ht I N LE. apply wf_iff in W as (W1 & W2 & W3 & W4). destruct (W4 i t Ht) as (_ & X & M).
  destruct (concat_split _ _ _ Ht) as (a & b & E & La). pose proof (tables_put s i t t' a b E La) as TP. split; [|split].
  - apply wf_iff. split; [exact W1|]. split; [exact W2|]. split. { rewrite TP. cbn [s_log2 put_table set_tables]. rewrite <- W3, E, !app_length. reflexivity. }
    cbn [s_ss s_log2 put_table set_tables]. intros j u Hu. fold (put_table s i t') in Hu. rewrite TP in Hu. destruct (Nat.eq_dec j i) as [->|NJ].
    + rewrite nth_error_app2, La, Nat.sub_diag in Hu by lia. cbn in Hu. injection Hu as <-. split; [exact N|]. split; [intros k c J; apply X, I, J|]. intros L. specialize (M L). lia.
    + apply (W4 j u). rewrite E. destruct (Nat.lt_ge_cases j i).
      * rewrite nth_error_app1 in Hu |- * by lia. exact Hu.
      * rewrite nth_error_app2 in Hu |- * by lia. destruct (j - len a)%nat eqn:D; [lia|]. exact Hu.
  - rewrite (terms_split _ _ _ _ E), (terms_split _ _ _ _ TP). intros e. rewrite !in_app_iff. intuition.
  - repeat split.
Qed.
Lemma lost_wf s s' : WF s -> lost s s' -> WF s' /\ incl (terms s') (terms s) /\ same_meta s s'.
Proof.
  intros W [->|(i & t & Ht & ->)]; [split; [exact W|split; [apply incl_refl|repeat split]]|].
  apply (thin_ok s i t []); auto; [intros ? []|constructor|cbn; lia].
Qed.

Lemma x_term_inv sign cz cc cs au k c (s : series) o (s' : series) : shaped s -> x_add_term KO CO PO sign cz cc cs au k c s o s' ->
  (o = Some tt /\ series_add_term KO CO PO sign cz cc cs au s k c = Ok s' /\ shaped s' /\ same_meta s s') \/ (o = None /\ lost s s').
Proof.
  intros SH H. unfold x_add_term in H. apply get_inv in H. cbv zeta in H. apply call_inv in H as [H|(-> & ->)]; [|right; split; [reflexivity|left; reflexivity]].
  unfold on_table in H. destruct (table_index_ok KO KS KL s k SH) as [_ TL].
  destruct (nth_error (s_tables s) (table_index KO (len (s_tables s)) k)) as [t|] eqn:ET; [|apply nth_error_None in ET; lia].
  destruct H as (t' & H & ->). apply x_table_inv in H as [(-> & H)|(-> & [->| ->])].
  - left. split; [reflexivity|]. split; [|split; [eapply put_shaped; eauto|repeat split]]. unfold series_add_term. cbv zeta. unfold rd. rewrite ET. cbn [bind]. rewrite H. reflexivity.
  - right. split; [reflexivity|]. left. apply put_same. exact ET.
  - right. split; [reflexivity|]. right. eauto.
Qed.
Lemma x_term_some sign cz cc cs au k c (s s' : series) : series_add_term KO CO PO sign cz cc cs au s k c = Ok s' -> x_add_term KO CO PO sign cz cc cs au k c s (Some tt) s'.
Proof.
  intros H. unfold series_add_term, rd in H. cbv zeta in H. unfold x_add_term. apply get_some. cbv zeta. apply call_some. unfold on_table.
  destruct (nth_error (s_tables s) (table_index KO (len (s_tables s)) k)) as [t|]; cbn [bind] in H; [|discriminate].
  destruct (series_add_term_table KO CO PO sign cz cc (negb (len (s_tables s) =? 1)%nat && cs) au (s_ss s) (max_table_size (s_log2 s)) t k c) as [t'| |] eqn:E; cbn [bind] in H; try discriminate.
  injection H as <-. exists t'. split; [apply x_table_some; exact E|reflexivity].
Qed.
(** The insertion into the only table. *)
Lemma x_single_inv sign cz cc au k c (s : series) o (s' : series) ss l : len (s_tables s) = 1%nat -> s_ss s = ss -> s_log2 s = l -> shaped s ->
  on_table 0 (x_add_term_table KO CO PO sign cz cc false au ss (max_table_size l) k c) s o s' ->
  (o = Some tt /\ series_add_term KO CO PO sign cz cc true au s k c = Ok s' /\ shaped s' /\ same_meta s s' /\ len (s_tables s') = 1%nat) \/ (o = None /\ lost s s').
Proof.
  intros L1 ES EL SH H. unfold on_table in H. destruct (nth_error (s_tables s) 0) as [t|] eqn:ET; [|apply nth_error_None in ET; lia].
  destruct H as (t' & H & ->). apply x_table_inv in H as [(-> & H)|(-> & [->| ->])].
  - left. split; [reflexivity|]. split; [|split; [eapply put_shaped; eauto|split; [repeat split|rewrite (put_len s 0 t t' ET); exact L1]]]. unfold series_add_term, table_index. rewrite L1. cbn [Nat.eqb negb andb]. unfold rd. rewrite ET. cbn [bind]. subst. rewrite H. reflexivity.
  - right. split; [reflexivity|]. left. apply put_same. exact ET.
  - right. split; [reflexivity|]. right. eauto.
Qed.

(** ** Loops over the terms of a series *)
Definition src_rel (rv : bool) (a b : series) : Prop := if rv then len (s_tables b) = len (s_tables a) /\ s_log2 b = s_log2 a else b = a.
Lemma src_refl rv a : src_rel rv a a. Proof. destruct rv; cbn; auto. Qed.
Lemma src_trans rv a b c : src_rel rv a b -> src_rel rv b c -> src_rel rv a c.
Proof. destruct rv; cbn; intuition congruence. Qed.
Definition frame (dst src : loc) (rv : bool) (h h' : @store K C Tag) : Prop := src_rel rv (h src) (h' src) /\ forall l, l <> dst -> l <> src -> h' l = h l.
Lemma frame_refl dst src rv h : frame dst src rv h h. Proof. split; [apply src_refl|auto]. Qed.
Lemma frame_trans dst src rv a b c : frame dst src rv a b -> frame dst src rv b c -> frame dst src rv a c.
Proof. intros [A1 A2] [B1 B2]. split; [eapply src_trans; eauto|]. intros l N1 N2. rewrite B2, A2; auto. Qed.
Lemma loc_eqb_iff a b : loc_eqb a b = true <-> a = b. Proof. destruct a, b; split; intros H; try discriminate; reflexivity. Qed.
Lemma upd_same h l (s : series) : upd h l s l = s. Proof. unfold upd. rewrite (proj2 (loc_eqb_iff l l) eq_refl). reflexivity. Qed.
Lemma upd_other h l (s : series) l' : l <> l' -> upd h l s l' = h l'.
Proof. intros N. unfold upd. destruct (loc_eqb l l') eqn:E; [apply loc_eqb_iff in E; contradiction|reflexivity]. Qed.

Lemma step_inv dst src rv (m : M series unit) k h o h' : dst <> src -> mfinally (on dst m) (scribbled KO rv src k) h o h' -> frame dst src rv h h' /\ m (h dst) o (h' dst).
Proof.
  intros N (h1 & (s' & H & ->) & SC). unfold scribbled in SC. destruct rv.
  - destruct SC as (g & ->). split; [|rewrite upd_other, upd_same by auto; exact H]. split; [|intros l N1 N2; rewrite !upd_other by auto; reflexivity].
    rewrite upd_same, upd_other by auto. cbn. rewrite map_length. auto.
  - subst h'. split; [|rewrite upd_same; exact H]. split; [cbn; rewrite upd_other; auto|intros l N1 N2; rewrite upd_other; auto].
Qed.

Section Loop.
Context {E : Type} (step : E -> M (@store K C Tag) unit) (f : series -> E -> res series) (Q : series -> series -> Prop) (I : series -> Prop) (dst src : loc) (rv : bool).
Lemma loop_inv l : (forall e h o h', In e l -> I (h dst) -> step e h o h' -> frame dst src rv h h' /\ ((o = Some tt /\ f (h dst) e = Ok (h' dst) /\ I (h' dst)) \/ (o = None /\ Q (h dst) (h' dst)))) ->
  forall h o h', I (h dst) -> mfor l step h o h' -> frame dst src rv h h' /\
    ((o = Some tt /\ rfold f l (h dst) = Ok (h' dst) /\ I (h' dst)) \/ (o = None /\ exists l1 e l2 s1, l = l1 ++ e :: l2 /\ rfold f l1 (h dst) = Ok s1 /\ I s1 /\ Q s1 (h' dst))).
Proof.
  induction l as [|e l IH]; intros STEP h o h' I0 H.
  - destruct H as [-> ->]. split; [apply frame_refl|]. left. auto.
  - destruct H as [(a & h1 & H1 & H2)|(-> & H1)].
    + destruct (STEP e h _ h1 (or_introl eq_refl) I0 H1) as [F1 [(_ & E1 & I1)|(X & _)]]; [|discriminate]. destruct a.
      destruct (IH (fun e' h o h' J => STEP e' h o h' (or_intror J)) h1 o h' I1 H2) as [F2 R]. split; [eapply frame_trans; eauto|]. cbn [rfold]. rewrite E1. cbn [bind].
      destruct R as [R|(-> & l1 & e' & l2 & s1 & -> & E2 & I2 & Q2)]; [auto|]. right. split; [reflexivity|]. exists (e :: l1), e', l2, s1. split; [reflexivity|]. split; [|auto]. cbn [rfold]. rewrite E1. exact E2.
    + destruct (STEP e h _ h' (or_introl eq_refl) I0 H1) as [F1 [(X & _)|(_ & Q1)]]; [discriminate|]. split; [exact F1|]. right. split; [reflexivity|]. exists [], e, l, (h dst). auto.
Qed.
End Loop.

Lemma rd_inv {B} l (f : series -> M (@store K C Tag) B) h o h' : mbind (rd_loc l) f h o h' -> f (h l) h o h'.
Proof. intros [(a & h1 & (E & ->) & H)|(_ & E & _)]; [injection E as ->; exact H|discriminate]. Qed.
Lemma wr_inv {B} l s (f : unit -> M (@store K C Tag) B) h o h' : mbind (wr_loc l s) f h o h' -> f tt (upd h l s) o h'.
Proof. intros [(a & h1 & (E & ->) & H)|(_ & E & _)]; [destruct a; exact H|discriminate]. Qed.
Lemma mv_inv {B} t l (f : unit -> M (@store K C Tag) B) h o h' : mbind (mv_loc t l) f h o h' -> f tt (upd (upd h t (h l)) l (moved_from (h l))) o h'.
Proof. intros [(a & h1 & (E & ->) & H)|(_ & E & _)]; [destruct a; exact H|discriminate]. Qed.
Lemma cp_inv {B} t l (f : unit -> M (@store K C Tag) B) h o h' : mbind (cp_loc t l) f h o h' -> f tt (upd h t (h l)) o h' \/ (o = None /\ h' = h).
Proof.
  intros [(a & h1 & H1 & H)|(-> & H1)]; unfold cp_loc in H1; apply call_inv in H1 as [H1|[X ->]]; try discriminate.
  - apply rd_inv in H1. destruct H1 as [_ ->]. destruct a. auto.
  - apply rd_inv in H1. destruct H1 as [X _]. discriminate.
  - auto.
Qed.

Lemma meta_trans (a b c : series) : same_meta a b -> same_meta b c -> same_meta a c.
Proof. intros (A1 & A2 & A3) (B1 & B2 & B3). repeat split; congruence. Qed.
Lemma rfold_add_terms sign cz cc cs au l (s : series) : rfold (fun s e => series_add_term KO CO PO sign cz cc cs au s (fst e) (snd e)) l s = add_terms KO CO PO sign cz cc cs au (fun c : C => c) l s.
Proof. reflexivity. Qed.

(** The loop of term_merger and of in_place_with_identical_ss. *)
Lemma merge_loop_inv sign dst src rv h o h' : dst <> src -> WF (h dst) -> (forall k c, In (k, c) (terms (h src)) -> ks_valid KS (len (s_ss (h dst))) k) ->
  x_merge_loop KO CO PO sign dst src rv h o h' ->
  frame dst src rv h h' /\
  ((o = Some tt /\ add_all KO CO PO sign (fun c : C => c) (h dst) (terms (h src)) = Ok (h' dst)) \/
   (o = None /\ exists l1 e l2 s1, terms (h src) = l1 ++ e :: l2 /\ add_all KO CO PO sign (fun c : C => c) (h dst) l1 = Ok s1 /\ WF s1 /\ lost s1 (h' dst))).
Proof.
  intros N W V H. unfold x_merge_loop in H. apply rd_inv in H. apply rd_inv in H. unfold add_all.
  destruct (1 <? len (s_tables (h dst)))%nat eqn:E1.
  - apply (loop_inv _ (fun s e => series_add_term KO CO PO sign true false true false s (fst e) (snd e)) lost (fun s => shaped s) dst src rv (terms (h src))) in H as [F R]; [| |apply wf_shaped; exact W].
    2:{ intros [k c] g p g' _ SH HS; apply step_inv in HS as [F X]; [|exact N]; split; [exact F|]; apply x_term_inv in X; [|exact SH]; cbn [fst snd]; tauto. }
    split; [exact F|]. destruct R as [(-> & E & _)|(-> & l1 & e & l2 & s1 & ET & E & _ & Q)]; [left; auto|]. right. split; [reflexivity|]. exists l1, e, l2, s1. split; [exact ET|]. split; [exact E|]. split; [|exact Q].
    destruct (add_terms_ok KO KS CO PO KL CL (fun c : C => c) sign true false true false l1 (h dst) W) as [(s' & E' & W' & _)|(E' & _)]; try discriminate; auto.
    + intros k c J. apply (V k c). rewrite ET. apply in_or_app. auto.
    + intros [X|X]; discriminate.
    + rewrite <- rfold_add_terms, E in E'. injection E' as ->. exact W'.
    + rewrite <- rfold_add_terms, E in E'. discriminate.
  - destruct (wf_one_table KO KS CO (h dst) W E1) as (L0 & t & Et).
    apply (loop_inv _ (fun s e => series_add_term KO CO PO sign true false true false s (fst e) (snd e)) lost (fun s => shaped s /\ len (s_tables s) = 1%nat /\ s_ss s = s_ss (h dst) /\ s_log2 s = s_log2 (h dst)) dst src rv (terms (h src))) in H as [F R].
    2:{ intros [k c] g p g' _ (SH & S1 & S2 & S3) HS; apply step_inv in HS as [F X]; [|exact N]; split; [exact F|]; apply (x_single_inv sign true false false k c (g dst) p (g' dst) (s_ss (h dst)) (s_log2 (h dst)) S1 S2 S3 SH) in X; cbn [fst snd].
       destruct X as [(-> & X1 & X2 & (M1 & M2 & M3) & X4)|X]; [left|right; exact X]. split; [reflexivity|]. split; [exact X1|]. split; [exact X2|]. split; [exact X4|]. split; congruence. }
    2:{ split; [apply wf_shaped; exact W|]. rewrite Et. auto. }
    split; [exact F|].
    assert (OT : forall l, (t0 <- rd (s_tables (h dst)) 0 ;; t' <- add_terms_table KO CO PO sign true false false false (fun c : C => c) (s_ss (h dst)) (max_table_size (s_log2 (h dst))) l t0 ;; Ok (put_table (h dst) 0 t')) =
      add_terms KO CO PO sign true false true false (fun c : C => c) l (h dst)). { intros l. rewrite Et at 1. cbn [rd nth_error bind]. apply one_table. exact Et. }
    destruct R as [(-> & E & _)|(-> & l1 & e & l2 & s1 & ET & E & _ & Q)]; [left; split; [reflexivity|]; rewrite OT; exact E|]. right. split; [reflexivity|]. exists l1, e, l2, s1. split; [exact ET|]. rewrite OT. split; [exact E|]. split; [|exact Q].
    destruct (add_terms_ok KO KS CO PO KL CL (fun c : C => c) sign true false true false l1 (h dst) W) as [(s' & E' & W' & _)|(E' & _)]; try discriminate; auto.
    + intros k c J. apply (V k c). rewrite ET. apply in_or_app. auto.
    + intros [X|X]; discriminate.
    + rewrite <- rfold_add_terms, E in E'. injection E' as ->. exact W'.
    + rewrite <- rfold_add_terms, E in E'. discriminate.
Qed.

(** After the scope of an operand: unchanged if it is an lvalue, cleared if it is an rvalue. *)
Definition used (rv : bool) (a : series) : series := if rv then series_clear TO a else a.
Lemma clear_src (a b : series) : len (s_tables b) = len (s_tables a) -> s_log2 b = s_log2 a -> series_clear TO b = series_clear TO a.
Proof.
  intros E1 E2. unfold series_clear. rewrite E2. f_equal. revert E1. generalize (s_tables a). induction (s_tables b) as [|t l IH]; intros [|u l'] E; try discriminate; [reflexivity|]. cbn [map]. f_equal. apply IH. cbn in E. lia.
Qed.
Lemma clearer_inv dst src rv h h1 h' : dst <> src -> frame dst src rv h h1 -> clearer TO rv src h1 h' -> h' src = used rv (h src) /\ h' dst = h1 dst /\ forall l, l <> dst -> l <> src -> h' l = h l.
Proof.
  intros N [F1 F2] CL'. unfold clearer in CL'. destruct rv; cbn [used src_rel] in *; subst h'.
  - split; [rewrite upd_same; apply clear_src; tauto|]. split; [rewrite upd_other; auto|]. intros l A B. rewrite upd_other by auto. apply F2; auto.
  - auto.
Qed.
Lemma used_wf rv a : WF a -> WF (used rv a).
Proof. intros W. destruct rv; [apply (proj1 (clear_cleared KO KS CO TO a W))|exact W]. Qed.

Lemma in_place_same_inv sign lhs rhs rv h o h' : lhs <> rhs -> WF (h lhs) -> WF (h rhs) -> s_ss (h rhs) = s_ss (h lhs) ->
  x_in_place_same KO CO PO TO sign lhs rhs rv h o h' ->
  h' rhs = used rv (h rhs) /\ (forall l, l <> lhs -> l <> rhs -> h' l = h l) /\
  ((o = Some tt /\ in_place_with_identical_ss KO CO PO sign (fun c : C => c) (h lhs) false (h rhs) = Ok (h' lhs)) \/
   (o = None /\ exists l1 e l2 s1, terms (h rhs) = l1 ++ e :: l2 /\ add_all KO CO PO sign (fun c : C => c) (h lhs) l1 = Ok s1 /\ WF s1 /\ lost s1 (h' lhs))).
Proof.
  intros N WL WR ES (h1 & H & HC). apply merge_loop_inv in H as [F R]; auto.
  - destruct (clearer_inv lhs rhs rv h h1 h' N F HC) as (C1 & C2 & C3). split; [exact C1|]. split; [exact C3|]. rewrite C2.
    destruct R as [(-> & E)|R]; [left; split; [reflexivity|exact E]|right; exact R].
  - intros k c J. rewrite <- ES. apply (wf_valid _ _ _ _ WR k c J).
Qed.

(** [series_sym_extender] and its callers. *)
Lemma extend_rfold (x : series) m u : WF x ->
  extend_to KO CO PO TO (tag_default TO) true (fun c : C => c) u x m =
  rfold (fun to e => k <- k_merge KO (fst e) m (s_ss x) ;; series_add_term KO CO PO true true false true true to k (snd e)) (terms x) (Series (repeat [] (2 ^ s_log2 x)) (s_log2 x) (tag_default TO) u).
Proof.
  intros W. unfold extend_to, set_symbol_set, set_tag, series_default. cbn [s_tables s_log2 s_tag s_ss series_empty forallb bind andb].
  unfold series_sym_extender, get_s_size. pose proof (wf_log2 _ _ _ _ W) as L. unfold set_n_segments. replace (max_log2_size <? s_log2 x)%nat with false by (symmetry; apply Nat.ltb_ge; exact L). cbn [bind s_tag s_ss].
  destruct (Nat.eqb_spec (s_log2 x) 0) as [L0|L0]; [|reflexivity].
  apply wf_shaped in W. unfold shaped in W. rewrite L0 in *. cbn in W. unfold terms. destruct (s_tables x) as [|t [|? ?]]; try discriminate. cbn [rd nth_error bind List.concat]. rewrite app_nil_r.
  cbn [Nat.pow repeat s_tables rd nth_error bind s_ss s_log2]. clear W. generalize (@nil (K * C)). intros t0. revert t0. induction t as [|e t IH]; intros t0; [reflexivity|].
  cbn [rfold]. rewrite !bind_assoc. destruct (k_merge KO (fst e) m (s_ss x)); cbn [bind]; auto.
  unfold series_add_term at 1. cbn [s_tables List.length table_index Nat.eqb rd nth_error bind negb andb s_ss s_log2]. unfold table_index. cbn [Nat.eqb nth_error rd bind].
  destruct (series_add_term_table KO CO PO true true false false true u (max_table_size 0) t0 a (snd e)); cbn [bind]; auto. exact (IH _).
Qed.

Lemma extend_inv to from rv u m h o h' : to <> from -> WF (h from) -> ins_map_ok (len (s_ss (h from))) m ->
  x_extend_to KO CO PO TO to from rv u m h o h' ->
  (forall l, l <> to -> l <> from -> h' l = h l) /\
  ((o = Some tt /\ h' from = used rv (h from) /\ extend_to KO CO PO TO (tag_default TO) true (fun c : C => c) u (h from) m = Ok (h' to)) \/
   (o = None /\ (h' from = h from \/ h' from = used rv (h from)))).
Proof.
  intros N W IM H. unfold x_extend_to in H. apply call_inv in H as [H|(-> & ->)]; [|auto]. apply res_inv in H; [|discriminate].
  destruct H as [(a & E & H)|(_ & _ & e & E)]; [|discriminate]. unfold set_symbol_set, series_default in E. cbn [series_empty s_tables forallb andb s_log2 s_tag] in E. injection E as <-.
  apply wr_inv in H. unfold x_sym_extender in H. destruct H as (h1 & H & HC).
  set (h0 := upd h to (Series [[]] 0 (tag_default TO) u)) in *. assert (H0f : h0 from = h from) by (unfold h0; rewrite upd_other; auto). assert (H0t : h0 to = Series [[]] 0 (tag_default TO) u) by (unfold h0; apply upd_same).
  assert (H0l : forall l, l <> to -> h0 l = h l) by (intros l NL; unfold h0; rewrite upd_other; auto).
  apply rd_inv in H. apply rd_inv in H. rewrite H0f, H0t in H. pose proof (wf_log2 _ _ _ _ W) as L. unfold set_n_segments, get_s_size in H. replace (max_log2_size <? s_log2 (h from))%nat with false in H by (symmetry; apply Nat.ltb_ge; exact L). cbn [s_tag s_ss] in H.
  apply res_inv in H; [|discriminate]. destruct H as [(a & E & H)|(_ & _ & e & E)]; [|discriminate]. injection E as <-.
  set (t0 := Series (repeat [] (2 ^ s_log2 (h from))) (s_log2 (h from)) (tag_default TO) u) in *.
  assert (FIN : forall g, frame to from rv h0 g -> clearer TO rv from g h' -> h' from = used rv (h from) /\ h' to = g to /\ (forall l, l <> to -> l <> from -> h' l = h l)).
  { intros g F CC. destruct (clearer_inv to from rv h0 g h' N F CC) as (C1 & C2 & C3). rewrite H0f in C1. split; [exact C1|]. split; [exact C2|]. intros l N1 N2. rewrite C3, H0l; auto. }
  apply call_inv in H as [H|(-> & ->)]; [|destruct (FIN h0 (frame_refl _ _ _ _) HC) as (F1 & F2 & F3); split; [exact F3|right; auto]].
  apply wr_inv in H. set (h2 := upd h0 to t0) in *.
  assert (F02 : frame to from rv h0 h2). { split; [unfold h2; rewrite upd_other by auto; apply src_refl|intros l N1 N2; unfold h2; rewrite upd_other; auto]. }
  assert (H2t : h2 to = t0) by (unfold h2; apply upd_same).
  apply call_inv in H as [H|(-> & ->)]; [|destruct (FIN h2 F02 HC) as (F1 & F2 & F3); split; [exact F3|right; auto]].
  assert (KM : forall e, In e (terms (h from)) -> k_merge KO (fst e) m (s_ss (h from)) <> UB).
  { intros [k c] J. pose proof (kl_merge _ _ KL k (s_ss (h from)) m (wf_valid _ _ _ _ W k c J) IM) as [A B]. cbn zeta in A, B. cbn [fst].
    destruct (kl_fits_dec _ _ KL (insert_zeros m (ks_exps KS (len (s_ss (h from))) k))) as [F|F]; [destruct (A F) as (r & E & _)|destruct (B F) as [E|E]]; congruence. }
  assert (MAIN : frame to from rv h2 h1 /\ ((o = Some tt /\ rfold (fun to e => k <- k_merge KO (fst e) m (s_ss (h from)) ;; series_add_term KO CO PO true true false true true to k (snd e)) (terms (h from)) t0 = Ok (h1 to)) \/ o = None)).
  { destruct (Nat.eqb_spec (s_log2 (h from)) 0) as [L0|L0].
    - assert (ST : shaped (h from)) by (apply wf_shaped; exact W). unfold shaped in ST. rewrite L0 in ST. cbn in ST. unfold terms in KM |- *. destruct (s_tables (h from)) as [|ft [|? ?]] eqn:Ef; try discriminate.
      cbn [rd nth_error] in H. apply res_inv in H; [|discriminate]. destruct H as [(a & E & H)|(_ & _ & e & E)]; [|discriminate]. injection E as <-. cbn [List.concat] in *. rewrite app_nil_r in *.
      apply (loop_inv _ (fun s e => k <- k_merge KO (fst e) m (s_ss (h from)) ;; series_add_term KO CO PO true true false true true s k (snd e)) (fun _ _ => True) (fun s => shaped s /\ len (s_tables s) = 1%nat /\ s_ss s = u /\ s_log2 s = 0%nat) to from rv ft) in H as [F R].
      + split; [exact F|]. rewrite H2t in R. destruct R as [(-> & E & _)|(-> & _)]; auto.
      + intros [k c] g p g' J (SH & S1 & S2 & S3) HS. apply call_inv in HS as [HS|(-> & ->)]; [|split; [apply frame_refl|right; auto]]. apply res_inv in HS; [|apply KM; exact J]. cbn [fst snd] in *.
        destruct HS as [(k' & EK & HS)|(-> & -> & _)]; [|split; [apply frame_refl|right; auto]]. apply step_inv in HS as [F X]; [|exact N]. split; [exact F|]. rewrite EK. cbn [bind].
        unfold t0 in X. cbn [s_log2 s_ss] in X. rewrite L0 in X. apply (x_single_inv true true false true k' c (g to) p (g' to) u 0%nat S1 S2 S3 SH) in X. destruct X as [(-> & X1 & X2 & (M1 & M2 & M3) & X4)|(-> & _)]; [left|right; auto].
        split; [reflexivity|]. split; [exact X1|]. split; [exact X2|]. split; [exact X4|]. split; congruence.
      + rewrite H2t. unfold t0. rewrite L0. repeat split.
    - apply (loop_inv _ (fun s e => k <- k_merge KO (fst e) m (s_ss (h from)) ;; series_add_term KO CO PO true true false true true s k (snd e)) (fun _ _ => True) (fun s => shaped s) to from rv (terms (h from))) in H as [F R].
      + split; [exact F|]. rewrite H2t in R. destruct R as [(-> & E & _)|(-> & _)]; auto.
      + intros [k c] g p g' J SH HS. apply call_inv in HS as [HS|(-> & ->)]; [|split; [apply frame_refl|right; auto]]. apply res_inv in HS; [|apply KM; exact J]. cbn [fst snd] in *.
        destruct HS as [(k' & EK & HS)|(-> & -> & _)]; [|split; [apply frame_refl|right; auto]]. apply step_inv in HS as [F X]; [|exact N]. split; [exact F|]. rewrite EK. cbn [bind].
        apply x_term_inv in X; [|exact SH]. destruct X as [(-> & X1 & X2 & _)|(-> & _)]; auto.
      + rewrite H2t. unfold shaped, t0. cbn [s_tables s_log2]. apply repeat_length. }
  destruct MAIN as [F R]. destruct (FIN h1 (frame_trans _ _ _ _ _ _ F02 F) HC) as (F1 & F2 & F3). split; [exact F3|]. destruct R as [(-> & E)| ->]; [left|right; auto].
  split; [reflexivity|]. split; [exact F1|]. rewrite F2, extend_rfold by exact W. exact E.
Qed.
End XP.
