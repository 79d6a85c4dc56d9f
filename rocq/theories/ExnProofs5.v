(** Proofs about ExnModel5.v: the multiplication of polynomials, interrupted by exceptions. *)
From Coq Require Import ZArith List Bool String Arith Sorted Permutation Lia Ring Ring_theory.
From Verif Require Import Base KpackModel KpackSpec KpackProofs P_Kpack IntModel IntSpec IntProofs SymModel SymSpec SymProofs P_Sym PMonModel PMonSpec PMonProofs KeyOps
  SeriesModel SeriesModel2 SeriesSpec SeriesProofs SeriesProofs2 SeriesProofs3 SeriesProofs4 SeriesProofs5 SeriesProofs6 P_Series P_Series2 PolyModel PolyModel2 SerModel SerSpec P_Ser P_Inv
  ExnModel ExnProofs ExnProofs2 P_Exn ExnProofs3 ExnModel5.
Import ListNotations.
Open Scope Z_scope.
Open Scope res_scope.
Local Notation len := List.length.

Section XT.
Context {K C Tag : Type} (KO : key_ops K) (KS : key_sem K) (CO : cf_ops C) (PO : tbl_policy (K * C)) (TO : tag_ops Tag) (E : mul_env K C Tag).
Context (KL : key_laws KO KS) (CL : cf_laws CO).
Notation series := (series K C Tag).
Notation store := (@store K C Tag).
Notation WF := (wf KO KS CO).
Notation tbl := (table K C).
Notation keys t := (map fst t).
Notation acc := (accumulate KO CO PO).

Lemma find_absent (t : tbl) k : tbl_find KO t k = None -> ~ In k (keys t).
Proof.
  intros H J. apply in_map_iff in J as ([k' c] & <- & J). unfold tbl_find in H. pose proof (List.find_none _ _ H _ J) as X. cbn [fst] in X.
  rewrite (proj2 (kl_eqb _ _ KL k' k') eq_refl) in X. discriminate.
Qed.
Lemma update_keys (t : tbl) k f : keys (tbl_update KO t k f) = keys t.
Proof. unfold tbl_update. rewrite map_map. apply map_ext. intros e. destruct (k_eqb KO (fst e) k); reflexivity. Qed.
Lemma update_twice (t : tbl) k g c : tbl_update KO (tbl_update KO t k (fun _ => g)) k (fun _ => c) = tbl_update KO t k (fun _ => c).
Proof. unfold tbl_update. rewrite map_map. apply map_ext. intros [k' c']. cbn [fst snd]. destruct (k_eqb KO k' k) eqn:X; cbn [fst snd]; rewrite X; reflexivity. Qed.
Lemma update_new (t : tbl) k c : ~ In k (keys t) -> tbl_update KO (reorder PO ((k, c) :: t)) k (fun _ => c) = reorder PO ((k, c) :: t).
Proof.
  intros N. unfold tbl_update. rewrite <- (map_id (reorder PO ((k, c) :: t))) at 2. apply map_ext_in. intros [k' c'] J. cbn [fst snd].
  destruct (k_eqb KO k' k) eqn:X; [|reflexivity]. apply (kl_eqb _ _ KL) in X as ->.
  apply (Permutation_in _ (reorder_perm PO ((k, c) :: t))) in J. destruct J as [J|J]; [injection J as <-; reflexivity|]. exfalso. apply N. apply in_map_iff. exists (k, c'). auto.
Qed.
Lemma new_keys (t : tbl) k c : ~ In k (keys t) -> NoDup (keys t) -> NoDup (keys (reorder PO ((k, c) :: t))).
Proof. intros N D. eapply Permutation_NoDup; [apply Permutation_sym, Permutation_map, (reorder_perm PO)|]. cbn [map fst]. constructor; assumption. Qed.

(** One multiplication of terms. *)
Lemma acc_inv ss p (t : tbl) o t' : NoDup (keys t) -> acc ss t p <> UB -> x_accumulate KO CO PO ss p t o t' ->
  (o = Some tt /\ acc ss t p = Ok t' /\ NoDup (keys t')) \/ o = None.
Proof.
  destruct p as [[k1 c1] [k2 c2]]. intros ND NU H. unfold x_accumulate in H. unfold accumulate in *. apply call_inv in H as [H|(-> & _)]; [|auto].
  apply res_inv in H; [|intros X; apply NU; rewrite X; reflexivity]. destruct H as [(k & EK & H)|(-> & _)]; [|auto]. rewrite EK in *. cbn [bind] in *. clear NU.
  apply bind_inv in H as [(ins & t1 & H1 & H)|(-> & _)]; [|auto]. apply call_inv in H as [H|(-> & _)]; [|auto].
  destruct H as [(-> & ->)|(-> & _)]; [|auto]. left. split; [reflexivity|]. unfold default_emplace in H1. unfold tbl_try_emplace.
  destruct (tbl_find KO t k) as [e|] eqn:EF.
  - destruct H1 as ([X|X] & ->); [|discriminate]. injection X as ->. split; [reflexivity|]. rewrite update_keys. exact ND.
  - destruct H1 as [(X & g & ->)|(X & _)]; [|discriminate]. injection X as ->. apply find_absent in EF. rewrite update_twice, update_new by exact EF. split; [reflexivity|]. apply new_keys; assumption.
Qed.
Lemma accs_inv ss : forall l (t : tbl) o t', NoDup (keys t) -> rfold (acc ss) l t <> UB -> mfor l (x_accumulate KO CO PO ss) t o t' ->
  (o = Some tt /\ rfold (acc ss) l t = Ok t' /\ NoDup (keys t')) \/ o = None.
Proof.
  induction l as [|p l IH]; intros t o t' ND NU H; [destruct H as [-> ->]; left; auto|]. cbn [rfold] in *.
  destruct H as [(u & t1 & H1 & H2)|(-> & _)]; [|auto]. apply acc_inv in H1; [|exact ND|intros X; apply NU; rewrite X; reflexivity]. destruct H1 as [(_ & E1 & N1)|X]; [|discriminate].
  rewrite E1 in *. cbn [bind] in *. apply IH in H2; auto.
Qed.
Lemma erase_inv (t : tbl) o t' : NoDup (keys t) -> x_erase_zeros KO CO t o t' -> (o = Some tt /\ t' = erase_zeros CO t) \/ o = None.
Proof.
  intros ND H. unfold x_erase_zeros in H. apply get_inv in H.
  apply (filter_loop KO KS KL (fun e => Ok (negb (c_is_zero CO (snd e)))) t [] t) in H; [|intros e _; discriminate|reflexivity|exact ND]. destruct H as [(-> & _ & ->)|(-> & _)]; [left|auto]. split; reflexivity.
Qed.
Lemma body_inv ss l (t : tbl) o t' : NoDup (keys t) -> rfold (acc ss) l t <> UB -> mbind (mfor l (x_accumulate KO CO PO ss)) (fun _ => x_erase_zeros KO CO) t o t' ->
  (o = Some tt /\ exists u, rfold (acc ss) l t = Ok u /\ t' = erase_zeros CO u) \/ o = None.
Proof.
  intros ND NU H. apply bind_inv in H as [(u & t1 & H1 & H2)|(-> & _)]; [|auto]. apply accs_inv in H1; auto. destruct H1 as [(_ & E1 & N1)|X]; [|discriminate].
  apply erase_inv in H2; [|exact N1]. destruct H2 as [(-> & ->)| ->]; [left|auto]. eauto.
Qed.
Lemma task_inv ss log2 l (t : tbl) o t' : NoDup (keys t) -> segment_task KO CO PO ss log2 l t <> UB -> x_task KO CO PO ss log2 l t o t' ->
  (o = Some tt /\ segment_task KO CO PO ss log2 l t = Ok t') \/ o = None.
Proof.
  intros ND NU H. unfold x_task in H. unfold segment_task in *. apply bind_inv in H as [(u & t1 & H1 & H)|(-> & _)]; [|auto].
  apply accs_inv in H1; [|exact ND|intros X; apply NU; rewrite X; reflexivity]. destruct H1 as [(_ & E1 & N1)|X]; [|discriminate]. rewrite E1 in *. cbn [bind] in *.
  apply bind_inv in H as [(u2 & t2 & H2 & H)|(-> & _)]; [|auto]. apply erase_inv in H2; [|exact N1]. destruct H2 as [(_ & ->)|X]; [|discriminate]. apply get_inv in H. cbv zeta in *.
  destruct (max_table_size log2 <? Z.of_nat (len (erase_zeros CO t1))); destruct H as [-> ->]; auto.
Qed.

(** Runs without an exception. *)
Lemma acc_run ss p (t t' : tbl) : acc ss t p = Ok t' -> x_accumulate KO CO PO ss p t (Some tt) t'.
Proof.
  destruct p as [[k1 c1] [k2 c2]]. unfold accumulate. intros H. unfold x_accumulate. apply call_some. destruct (k_mul KO k1 k2 ss) as [k| |] eqn:EK; cbn [bind] in H; try discriminate.
  eapply res_some; [reflexivity|]. unfold tbl_try_emplace in H. destruct (tbl_find KO t k) as [e|] eqn:EF; injection H as <-.
  - eapply (bind_run _ _ t false t). { unfold default_emplace. rewrite EF. auto. } apply call_some. left. auto.
  - eapply (bind_run _ _ t true (tbl_update KO (reorder PO ((k, c_mul CO c1 c2) :: t)) k (fun _ => c_mul CO c1 c2))). { unfold default_emplace. rewrite EF. left. eauto. }
    apply call_some. left. split; [reflexivity|]. rewrite update_twice. symmetry. apply update_new, find_absent, EF.
Qed.
Lemma accs_run ss : forall l (t t' : tbl), rfold (acc ss) l t = Ok t' -> mfor l (x_accumulate KO CO PO ss) t (Some tt) t'.
Proof.
  induction l as [|p l IH]; intros t t' H; cbn [rfold] in H; [injection H as <-; split; reflexivity|]. destruct (acc ss t p) as [t1| |] eqn:E1; cbn [bind] in H; try discriminate.
  eapply bind_run; [apply acc_run, E1|apply IH, H].
Qed.
Lemma accs_keys ss : forall l (t t' : tbl), NoDup (keys t) -> rfold (acc ss) l t = Ok t' -> NoDup (keys t').
Proof. intros l t t' ND H. pose proof (accs_run ss l t t' H) as R. apply accs_inv in R; [|exact ND|congruence]. destruct R as [(_ & _ & R)|X]; [exact R|discriminate]. Qed.
Lemma erase_run (t : tbl) : NoDup (keys t) -> x_erase_zeros KO CO t (Some tt) (erase_zeros CO t).
Proof.
  intros ND. assert (exists t', x_erase_zeros KO CO t (Some tt) t') as (t' & X).
  { unfold x_erase_zeros. match goal with |- exists t', mbind mget (fun t => mfor t ?g) _ _ _ => destruct (for_progress g t t) as (t' & X) end; [|exists t'; apply get_some; exact X].
    intros e u _. destruct (negb (c_is_zero CO (snd e))) eqn:EB; (eexists; apply call_some; eapply res_some; [reflexivity|]; split; reflexivity). }
  pose proof X as Y. apply erase_inv in Y; [|exact ND]. destruct Y as [(_ & ->)|Y]; [exact X|discriminate].
Qed.
Lemma body_run ss l (t u : tbl) : NoDup (keys t) -> rfold (acc ss) l t = Ok u -> mbind (mfor l (x_accumulate KO CO PO ss)) (fun _ => x_erase_zeros KO CO) t (Some tt) (erase_zeros CO u).
Proof. intros ND H. eapply bind_run; [apply accs_run, H|]. apply erase_run. eapply accs_keys; eauto. Qed.
Lemma task_run ss log2 l (t t' : tbl) : NoDup (keys t) -> segment_task KO CO PO ss log2 l t = Ok t' -> x_task KO CO PO ss log2 l t (Some tt) t'.
Proof.
  intros ND H. unfold segment_task in H. destruct (rfold (acc ss) l t) as [u| |] eqn:EU; cbn [bind] in H; try discriminate. unfold x_task. eapply bind_run; [apply accs_run, EU|].
  eapply bind_run; [apply erase_run; eapply accs_keys; eauto|]. apply get_some. cbv zeta in H. destruct (max_table_size log2 <? Z.of_nat (len (erase_zeros CO u))); [discriminate|]. injection H as <-. split; reflexivity.
Qed.

(** The tasks. *)
Section Tasks.
Context (n : nat) (f : nat -> res (list ((K * C) * (K * C)))) (ss : symbol_set) (log2 : nat) (T : list tbl).
Definition task_of (i : nat) : res tbl := pairs <- f i ;; tab <- rd T i ;; segment_task KO CO PO ss log2 pairs tab.
Notation step := (fun i => mbind (mres (f i)) (fun pairs => on_table i (x_task KO CO PO ss log2 pairs))).
Lemma tasks_inv : forall (b a : list tbl) (s : series) s', (forall j, nth_error T (len a + j) = nth_error b j) -> (forall t, In t b -> NoDup (keys t)) -> s_tables s = a ++ b ->
  rmap task_of (seq (len a) (len b)) <> UB -> mfor (seq (len a) (len b)) step s (Some tt) s' ->
  exists b', rmap task_of (seq (len a) (len b)) = Ok b' /\ s' = set_tables s (a ++ b').
Proof.
  induction b as [|t b IH]; intros a s s' HT ND ET NU H.
  - destruct H as [_ ->]. exists []. split; [reflexivity|]. rewrite <- ET, set_self. reflexivity.
  - cbn [len seq rmap] in *. apply for_cons in H as (s1 & H1 & H2). pose proof (HT 0%nat) as HT0. rewrite Nat.add_0_r in HT0. cbn [nth_error] in HT0.
    assert (E1 : exists t', task_of (len a) = Ok t' /\ s1 = set_tables s (a ++ t' :: b)).
    { unfold task_of at 1. unfold task_of at 1 in NU. unfold rd in *. rewrite HT0 in *. apply res_inv in H1; [|intros X; apply NU; rewrite X; reflexivity]. destruct H1 as [(p & EP & H1)|(X & _)]; [|discriminate]. rewrite EP in *. cbn [bind] in *.
      unfold on_table in H1. rewrite ET, nth_error_app2, Nat.sub_diag in H1 by lia. cbn [nth_error] in H1. destruct H1 as (t' & H1 & ->). apply task_inv in H1; [|apply ND; left; reflexivity|intros X; apply NU; rewrite X; reflexivity].
      destruct H1 as [(_ & E1)|X]; [|discriminate]. rewrite E1. exists t'. split; [reflexivity|]. apply (set_put s a t b t' ET). }
    destruct E1 as (t' & E1 & ->). rewrite E1 in *. cbn [bind] in *.
    assert (L : len (a ++ [t']) = S (len a)) by (rewrite app_length; cbn; lia).
    destruct (IH (a ++ [t']) (set_tables s (a ++ t' :: b)) s') as (b' & E2 & ->).
    + intros j. rewrite L. change (nth_error b j) with (nth_error (t :: b) (S j)). rewrite <- HT. f_equal. lia.
    + intros u J. apply ND. right. exact J.
    + cbn [s_tables set_tables]. rewrite <- app_assoc. reflexivity.
    + rewrite L. intros X. apply NU. rewrite X. reflexivity.
    + rewrite L. exact H2.
    + rewrite L in E2. rewrite E2. exists (t' :: b'). split; [reflexivity|]. rewrite set_set, <- app_assoc. reflexivity.
Qed.
Lemma tasks_run : forall (b a : list tbl) (s : series) b', (forall j, nth_error T (len a + j) = nth_error b j) -> (forall t, In t b -> NoDup (keys t)) -> s_tables s = a ++ b ->
  rmap task_of (seq (len a) (len b)) = Ok b' -> mfor (seq (len a) (len b)) step s (Some tt) (set_tables s (a ++ b')).
Proof.
  induction b as [|t b IH]; intros a s b' HT ND ET H.
  - cbn in H. injection H as <-. rewrite <- ET, set_self. split; reflexivity.
  - cbn [len seq rmap] in *. pose proof (HT 0%nat) as HT0. rewrite Nat.add_0_r in HT0. cbn [nth_error] in HT0.
    destruct (task_of (len a)) as [t'| |] eqn:E1; cbn [bind] in H; try discriminate. destruct (rmap task_of (seq (S (len a)) (len b))) as [b2| |] eqn:E2; cbn [bind] in H; try discriminate. injection H as <-.
    assert (L : len (a ++ [t']) = S (len a)) by (rewrite app_length; cbn; lia).
    cbn [mfor]. eapply (bind_run _ _ s tt (set_tables s (a ++ t' :: b))).
    + unfold task_of, rd in E1. rewrite HT0 in E1. destruct (f (len a)) as [p| |] eqn:EP; cbn [bind] in E1; try discriminate. eapply res_some; [reflexivity|].
      unfold on_table. rewrite ET, nth_error_app2, Nat.sub_diag by lia. cbn [nth_error]. exists t'. split; [apply task_run; [apply ND; left; reflexivity|exact E1]|]. symmetry. apply (set_put s a t b t' ET).
    + rewrite <- L. replace (set_tables s (a ++ t' :: b2)) with (set_tables (set_tables s (a ++ t' :: b)) ((a ++ [t']) ++ b2)) by (rewrite set_set, <- app_assoc; reflexivity). apply IH.
      * intros j. rewrite L. change (nth_error b j) with (nth_error (t :: b) (S j)). rewrite <- HT. f_equal. lia.
      * intros u J. apply ND. right. exact J.
      * cbn [s_tables set_tables]. rewrite <- app_assoc. reflexivity.
      * rewrite L. exact E2.
Qed.
End Tasks.

(** The two algorithms. *)
Notation others h h' := (forall l, l <> LR -> h' l = h l).
Lemma others_refl (h : store) : others h h. Proof. auto. Qed.
Lemma others_upd (h : store) s : others h (upd h LR s). Proof. intros l N. apply upd_other. congruence. Qed.
Lemma put_twice (s : series) t1 t2 : s_tables s = [[]] -> put_table (put_table s 0 t1) 0 t2 = put_table s 0 t2.
Proof. intros Es. unfold put_table. rewrite Es. reflexivity. Qed.
Lemma put_empty (s : series) : s_tables s = [[]] -> put_table s 0 [] = s.
Proof. intros Es. destruct s as [ts l tg u]. cbn in Es. subst ts. reflexivity. Qed.
Lemma simple_inv t x y (h : store) o h' : x <> LR -> y <> LR -> s_tables (h LR) = [[]] -> poly_mul_simple KO CO PO E t (h LR) (h x) (h y) <> UB ->
  x_mul_simple KO CO PO E t x y h o h' -> others h h' /\ ((o = Some tt /\ poly_mul_simple KO CO PO E t (h LR) (h x) (h y) = Ok (h' LR)) \/ (o = None /\ h' LR = h LR)).
Proof.
  intros Nx Ny EL NU H. unfold x_mul_simple in H. apply rd_inv in H. apply rd_inv in H. apply rd_inv in H. cbv zeta in H. unfold poly_mul_simple in *. cbv zeta in *.
  apply call_inv in H as [H|(-> & ->)]; [|auto]. apply res_inv in H; [|intros X; apply NU; rewrite X; reflexivity]. destruct H as [(b & EC & H)|(-> & -> & _)]; [|auto]. rewrite EC in *. cbn [bind] in *.
  apply call_inv in H as [H|(-> & ->)]; [|auto]. unfold bind in NU at 1. unfold bind at 1.
  match type of H with mbind (mres ?pp) _ _ _ _ => set (P := pp) in *; change (match P with Ok a => _ | Throw e => Throw e | UB => UB end) with (bind P (fun pairs => tab <- rd (s_tables (h LR)) 0 ;; tab' <- rfold (acc (s_ss (h LR))) pairs tab ;; Ok (put_table (h LR) 0 (erase_zeros CO tab')))) end.
  assert (NU' : bind P (fun pairs => tab <- rd (s_tables (h LR)) 0 ;; tab' <- rfold (acc (s_ss (h LR))) pairs tab ;; Ok (put_table (h LR) 0 (erase_zeros CO tab'))) <> UB) by exact NU. clear NU.
  apply res_inv in H; [|intros X; apply NU'; rewrite X; reflexivity]. destruct H as [(pairs & EP & H)|(-> & -> & _)]; [|auto].
  rewrite EP in *. cbn [bind] in *. rewrite EL in *. cbn [rd nth_error bind] in *.
  destruct H as [(a & -> & H)|(-> & h1 & H & ->)].
  - destruct a. apply call_inv in H as [H|(X & _)]; [|discriminate]. destruct H as (s' & H & ->). unfold on_table in H. rewrite EL in H. cbn [nth_error] in H. destruct H as (t' & H & ->).
    apply body_inv in H; [|constructor|intros X; apply NU'; rewrite X; reflexivity]. destruct H as [(_ & u & EU & ->)|X]; [|discriminate]. split; [apply others_upd|]. left. split; [reflexivity|]. rewrite EU, upd_same. reflexivity.
  - apply call_inv in H as [H|(_ & ->)].
    + destruct H as (s' & H & ->). unfold on_table in H. rewrite EL in H. cbn [nth_error] in H. destruct H as (t' & H & ->). rewrite upd_same, put_twice, put_empty by exact EL.
      split; [intros l N; rewrite !upd_other by congruence; reflexivity|]. right. split; [reflexivity|apply upd_same].
    + rewrite put_empty by exact EL. split; [apply others_upd|]. right. split; [reflexivity|apply upd_same].
Qed.
Lemma simple_run t x y (h : store) r : s_tables (h LR) = [[]] -> poly_mul_simple KO CO PO E t (h LR) (h x) (h y) = Ok r -> x_mul_simple KO CO PO E t x y h (Some tt) (upd h LR r).
Proof.
  intros EL H. unfold x_mul_simple. apply rd_run, rd_run, rd_run. cbv zeta. unfold poly_mul_simple in H. cbv zeta in H.
  destruct (check_overflow E (s_ss (h LR)) (terms (h x)) (terms (h y))) as [b| |] eqn:EC; cbn [bind] in H; try discriminate. apply call_some. eapply res_some; [reflexivity|]. apply call_some.
  match goal with |- mbind (mres ?pp) _ _ _ _ => set (P := pp) in * end. change (bind P (fun pairs => tab <- rd (s_tables (h LR)) 0 ;; tab' <- rfold (acc (s_ss (h LR))) pairs tab ;; Ok (put_table (h LR) 0 (erase_zeros CO tab'))) = Ok r) in H.
  destruct P as [pairs| |]; cbn [bind] in H; try discriminate. eapply res_some; [reflexivity|]. rewrite EL in H. cbn [rd nth_error bind] in H.
  destruct (rfold (acc (s_ss (h LR))) pairs []) as [u| |] eqn:EU; cbn [bind] in H; try discriminate. injection H as <-. left. exists tt. split; [reflexivity|]. apply call_some. eexists. split; [|reflexivity].
  unfold on_table. rewrite EL. cbn [nth_error]. eexists. split; [apply body_run; [constructor|exact EU]|reflexivity].
Qed.

Lemma nth_repeat_nil n (t : tbl) : In t (repeat [] n) -> NoDup (keys t).
Proof. intros J. apply repeat_spec in J as ->. constructor. Qed.
Lemma mt_inv t x y (h : store) o h' : x <> LR -> y <> LR -> WF (h LR) -> poly_mul_mt KO CO PO E t (h LR) (h x) (h y) <> UB ->
  x_mul_mt KO CO PO TO E t x y h o h' -> others h h' /\ ((o = Some tt /\ poly_mul_mt KO CO PO E t (h LR) (h x) (h y) = Ok (h' LR)) \/ (o = None /\ WF (h' LR) /\ (h' LR = h LR \/ terms (h' LR) = []))).
Proof.
  intros Nx Ny W NU H. unfold x_mul_mt in H. apply rd_inv in H. apply rd_inv in H. apply rd_inv in H. cbv zeta in H. unfold poly_mul_mt in *. cbv zeta in *.
  apply call_inv in H as [H|(-> & ->)]; [|auto 6]. apply res_inv in H; [|intros X; apply NU; rewrite X; reflexivity]. destruct H as [(b & EC & H)|(-> & -> & _)]; [|auto 6]. rewrite EC in *. cbn [bind] in *.
  apply call_inv in H as [H|(-> & ->)]; [|auto 6].
  set (Nn := match t with None => Ok false | Some t0 => no_mults E t0 (s_ss (h LR)) (terms (h x)) (terms (h y)) end) in *.
  apply res_inv in H; [|intros X; apply NU; rewrite X; reflexivity]. destruct H as [(nothing & EN & H)|(-> & -> & _)]; [|auto 6]. rewrite EN in *. cbn [bind] in *. clear Nn EN.
  destruct nothing. { destruct H as [-> ->]. auto. }
  set (lg := Nat.min (me_log2 E (terms (h x)) (terms (h y))) max_log2_size) in *.
  destruct (set_n_segments_ok KO KS CO (h LR) lg ltac:(unfold lg; lia) (wf_ss _ _ _ _ W)) as [ES WS]. rewrite ES in *. cbn [bind] in *.
  apply call_inv in H as [H|(-> & ->)]; [|auto 6]. apply res_inv in H; [|discriminate]. destruct H as [(r' & ER & H)|(-> & -> & _)]; [|auto 6]. injection ER as <-.
  set (r' := Series (repeat [] (2 ^ lg)) lg (s_tag (h LR)) (s_ss (h LR))) in *.
  assert (RT : terms r' = []). { unfold terms, r'. cbn [s_tables]. generalize (2 ^ lg)%nat. intros n. induction n; auto. }
  apply wr_inv in H. cbv zeta in H. set (h1 := upd h LR r') in *.
  assert (O1 : others h h1) by apply others_upd. assert (R1 : h1 LR = r') by apply upd_same.
  assert (STOP : h' = h1 -> o = None -> others h h' /\ ((o = Some tt /\ bind (compute_vseg KO lg (me_sort E (fun e => Z.of_nat (seg_of KO lg e)) (terms (h x)))) (fun _ => UB) = Ok (h' LR)) \/ (o = None /\ WF (h' LR) /\ (h' LR = h LR \/ terms (h' LR) = [])))).
  { intros -> ->. split; [exact O1|]. right. split; [reflexivity|]. rewrite R1. auto. }
  assert (STOP' : h' = h1 -> o = None -> others h h' /\ forall Q : Prop, Q \/ (o = None /\ WF (h' LR) /\ (h' LR = h LR \/ terms (h' LR) = []))).
  { intros -> ->. split; [exact O1|]. intros Q. right. split; [reflexivity|]. rewrite R1. auto. }
  clear STOP.
  set (v1 := me_sort E (fun e => Z.of_nat (seg_of KO lg e)) (terms (h x))) in *. set (v2 := me_sort E (fun e => Z.of_nat (seg_of KO lg e)) (terms (h y))) in *.
  apply call_inv in H as [H|(Eo & Eh)]; [|destruct (STOP' Eh Eo); auto]. apply res_inv in H; [|intros X; apply NU; rewrite X; reflexivity]. destruct H as [(vs1 & E1 & H)|(Eo & Eh & _)]; [|destruct (STOP' Eh Eo); auto]. rewrite E1 in *. cbn [bind] in *.
  apply res_inv in H; [|intros X; apply NU; rewrite X; reflexivity]. destruct H as [(vs2 & E2 & H)|(Eo & Eh & _)]; [|destruct (STOP' Eh Eo); auto]. rewrite E2 in *. cbn [bind] in *.
  apply call_inv in H as [H|(Eo & Eh)]; [|destruct (STOP' Eh Eo); auto].
  set (P1 := match t with None => Ok (v1, []) | Some t0 => seg_sorted E t0 (s_ss (h LR)) v1 vs1 end) in *. set (P2 := match t with None => Ok (v2, []) | Some t0 => seg_sorted E t0 (s_ss (h LR)) v2 vs2 end) in *.
  apply res_inv in H; [|intros X; apply NU; rewrite X; reflexivity]. destruct H as [([w1 d1] & EP1 & H)|(Eo & Eh & _)]; [|destruct (STOP' Eh Eo); auto]. rewrite EP1 in *. cbn [bind] in *.
  apply res_inv in H; [|intros X; apply NU; rewrite X; reflexivity]. destruct H as [([w2 d2] & EP2 & H)|(Eo & Eh & _)]; [|destruct (STOP' Eh Eo); auto]. rewrite EP2 in *. cbn [bind fst snd] in *. clear STOP'.
  set (f := task_pairs t w1 w2 d1 d2 vs1 vs2 (2 ^ lg)) in *.
  change (bind (rmap (task_of f (s_ss (h LR)) lg (s_tables r')) (seq 0 (2 ^ lg))) (fun tabs => Ok (set_tables r' tabs)) <> UB) in NU.
  change (others h h' /\ ((o = Some tt /\ bind (rmap (task_of f (s_ss (h LR)) lg (s_tables r')) (seq 0 (2 ^ lg))) (fun tabs => Ok (set_tables r' tabs)) = Ok (h' LR)) \/ (o = None /\ WF (h' LR) /\ (h' LR = h LR \/ terms (h' LR) = [])))).
  destruct H as [(a & -> & H)|(-> & h2 & H & ->)].
  - destruct a. destruct H as (s' & H & ->). rewrite R1 in H. unfold x_tasks in H. cbn [r' s_tables] in NU.
    pose proof (tasks_inv f (s_ss (h LR)) lg (repeat [] (2 ^ lg)) (repeat [] (2 ^ lg)) [] r' s') as TI. rewrite repeat_length in TI. cbn [List.length Nat.add app] in TI.
    destruct TI as (b' & EB & ->); [reflexivity|apply nth_repeat_nil|reflexivity|intros X; apply NU; rewrite X; reflexivity|exact H|].
    split; [intros l N; rewrite upd_other by congruence; apply O1; exact N|]. left. split; [reflexivity|]. rewrite upd_same. unfold r' at 1. cbn [s_tables]. rewrite EB. reflexivity.
  - destruct H as (s' & H & ->). rewrite R1 in H. destruct H as (tabs & EL & ->). rewrite upd_same. split; [intros l N; rewrite !upd_other by congruence; apply O1; exact N|]. right. split; [reflexivity|]. rewrite upd_same.
    rewrite (clear_src TO r' (set_tables r' tabs)) by (auto; reflexivity). split; [apply (used_wf KO KS CO TO true r' WS)|]. right. apply (cleared_is TO r').
Qed.
End XT.
