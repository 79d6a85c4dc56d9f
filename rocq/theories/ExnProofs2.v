(** Proofs about ExnModel.v: loops over the tables of one series. *)
From Coq Require Import ZArith List Bool String Arith Sorted Permutation Lia Ring Ring_theory.
From Verif Require Import Base KpackModel KpackSpec KpackProofs P_Kpack IntModel IntSpec IntProofs SymModel SymSpec SymProofs P_Sym PMonModel PMonSpec PMonProofs KeyOps
  SeriesModel SeriesModel2 SeriesSpec SeriesProofs SeriesProofs2 SeriesProofs3 SeriesProofs4 SeriesProofs5 SeriesProofs6 P_Series P_Series2 PolyModel PolyModel2 SerModel SerSpec P_Ser ExnModel ExnProofs.
Import ListNotations.
Open Scope Z_scope.
Open Scope res_scope.
Local Notation len := List.length.

Section XP2.
Context {K C Tag : Type} (KO : key_ops K) (KS : key_sem K) (CO : cf_ops C) (PO : tbl_policy (K * C)) (TO : tag_ops Tag).
Context (KL : key_laws KO KS) (CL : cf_laws CO).
Notation series := (series K C Tag).
Notation WF := (wf KO KS CO).
Notation tbl := (list (K * C)).

Lemma set_put (s : series) a t b t' : s_tables s = a ++ t :: b -> put_table s (len a) t' = set_tables s (a ++ t' :: b).
Proof. intros E. unfold put_table. rewrite E, put_split. reflexivity. Qed.
Lemma set_set (s : series) a b : set_tables (set_tables s a) b = set_tables s b. Proof. reflexivity. Qed.
Lemma set_self (s : series) : set_tables s (s_tables s) = s. Proof. destruct s; reflexivity. Qed.

Lemma tables_loop (m : M tbl unit) (R : tbl -> tbl -> Prop) (Q : tbl -> tbl -> Prop) :
  forall (b : list tbl) (a : list tbl) (s : series) o s',
  (forall t o t', In t b -> m t o t' -> (o = Some tt /\ R t t') \/ (o = None /\ Q t t')) ->
  s_tables s = a ++ b ->
  mfor (seq (len a) (len b)) (fun i => on_table i m) s o s' ->
  (o = Some tt /\ exists b', Forall2 R b b' /\ s' = set_tables s (a ++ b')) \/
  (o = None /\ exists b1 t b2 b1' t', b = b1 ++ t :: b2 /\ Forall2 R b1 b1' /\ Q t t' /\ s' = set_tables s (a ++ b1' ++ t' :: b2)).
Proof.
  induction b as [|t b IH]; intros a s o s' HM ET H.
  - destruct H as [-> ->]. left. split; [reflexivity|]. exists []. split; [constructor|]. rewrite <- ET. symmetry. apply set_self.
  - cbn [List.length seq mfor] in H. assert (NT : nth_error (s_tables s) (len a) = Some t) by (rewrite ET, nth_error_app2, Nat.sub_diag by lia; reflexivity).
    destruct H as [(u & s1 & H1 & H2)|(-> & H1)]; unfold on_table in H1; rewrite NT in H1; destruct H1 as (t' & H1 & ->).
    + apply HM in H1 as [(_ & HR)|(X & _)]; [|discriminate|left; reflexivity].
      rewrite (set_put s a t b t' ET) in H2. replace (S (len a)) with (len (a ++ [t'])) in H2 by (rewrite app_length; cbn; lia).
      apply (IH (a ++ [t'])) in H2; [|intros; apply HM; [right|]; auto|cbn [set_tables s_tables]; rewrite <- app_assoc; reflexivity].
      destruct H2 as [(-> & b' & F & ->)|(-> & b1 & t1 & b2 & b1' & t1' & -> & F & HQ & ->)].
      * left. split; [reflexivity|]. exists (t' :: b'). split; [constructor; auto|]. rewrite set_set, <- app_assoc. reflexivity.
      * right. split; [reflexivity|]. exists (t :: b1), t1, b2, (t' :: b1'), t1'. split; [reflexivity|]. split; [constructor; auto|]. split; [exact HQ|]. rewrite set_set, <- app_assoc. reflexivity.
    + apply HM in H1 as [(X & _)|(_ & HQ)]; [discriminate| |left; reflexivity]. right. split; [reflexivity|]. exists [], t, b, [], t'. split; [reflexivity|]. split; [constructor|]. split; [exact HQ|]. exact (set_put s a t b t' ET).
Qed.

(** The loop over one table which operates on each coefficient. *)
Lemma k_eqb_iff a b : k_eqb KO a b = true <-> a = b. Proof. apply (kl_eqb _ _ KL). Qed.
Lemma update_split (k : K) c (t1 t2 : tbl) f : ~ In k (map fst t1) -> ~ In k (map fst t2) -> tbl_update KO (t1 ++ (k, c) :: t2) k f = t1 ++ (k, f c) :: t2.
Proof.
  intros N1 N2. unfold tbl_update. rewrite map_app. cbn [map fst snd].
  assert (ID : forall l : tbl, ~ In k (map fst l) -> map (fun e => if k_eqb KO (fst e) k then (fst e, f (snd e)) else e) l = l).
  { induction l as [|e l IH]; intros N; [reflexivity|]. cbn [map]. cbn in N. destruct (k_eqb KO (fst e) k) eqn:E; [apply k_eqb_iff in E; tauto|]. f_equal. apply IH. tauto. }
  rewrite (proj2 (k_eqb_iff k k) eq_refl), !ID; auto.
Qed.
Lemma modify_loop f : forall (l done t : tbl) o t', t = map (fun e => (fst e, f (snd e))) done ++ l -> NoDup (map fst (done ++ l)) ->
  mfor l (fun e => modify KO (fst e) f) t o t' ->
  (o = Some tt /\ t' = map (fun e => (fst e, f (snd e))) (done ++ l)) \/
  (o = None /\ exists l1 e l2 g, l = l1 ++ e :: l2 /\ t' = map (fun e => (fst e, f (snd e))) (done ++ l1) ++ (fst e, g) :: l2).
Proof.
  induction l as [|[k c] l IH]; intros done t o t' -> ND H.
  - destruct H as [-> ->]. left. rewrite !app_nil_r. auto.
  - assert (NK : ~ In k (map fst (map (fun e => (fst e, f (snd e))) done)) /\ ~ In k (map fst l)).
    { rewrite map_map. cbn [fst]. rewrite map_app in ND. cbn [map fst] in ND. apply NoDup_remove_2 in ND. rewrite in_app_iff in ND. tauto. }
    destruct NK as [N1 N2]. destruct H as [(u & t1 & H1 & H2)|(-> & H1)].
    + destruct H1 as [[_ ->]|[X _]]; [|discriminate]. cbn [fst] in H2. rewrite update_split in H2 by auto.
      apply (IH (done ++ [(k, c)])) in H2; [|rewrite map_app, <- app_assoc; reflexivity|rewrite <- app_assoc; exact ND].
      rewrite <- app_assoc in H2. destruct H2 as [H2|(-> & l1 & e & l2 & g & -> & ->)]; [left; exact H2|]. right. split; [reflexivity|].
      exists ((k, c) :: l1), e, l2, g. split; [reflexivity|]. rewrite <- app_assoc. reflexivity.
    + destruct H1 as [[X _]|[_ (g & ->)]]; [discriminate|]. right. split; [reflexivity|]. exists [], (k, c), l, g. split; [reflexivity|]. cbn [fst]. rewrite update_split, app_nil_r by auto. reflexivity.
Qed.

Lemma negate_inv (s : series) o s' : WF s -> x_negate KO CO s o s' ->
  (o = Some tt /\ s' = series_negate CO s) \/
  (o = None /\ exists a t1 k c g t2 b, s_tables s = a ++ (t1 ++ (k, c) :: t2) :: b /\
     s' = set_tables s (map (map (fun e => (fst e, c_neg CO (snd e)))) a ++ (map (fun e => (fst e, c_neg CO (snd e))) t1 ++ (k, g) :: t2) :: b)).
Proof.
  intros W H. unfold x_negate in H. apply get_inv in H.
  apply (tables_loop _ (fun t t' => t' = map (fun e => (fst e, c_neg CO (snd e))) t) (fun t t' => exists t1 k c g t2, t = t1 ++ (k, c) :: t2 /\ t' = map (fun e => (fst e, c_neg CO (snd e))) t1 ++ (k, g) :: t2) (s_tables s) []) in H; [| |reflexivity].
  - cbn [app] in H. assert (FM : forall b b' : list tbl, Forall2 (fun t t' => t' = map (fun e => (fst e, c_neg CO (snd e))) t) b b' -> b' = map (map (fun e => (fst e, c_neg CO (snd e)))) b).
    { induction 1; [reflexivity|]. cbn [map]. congruence. }
    destruct H as [(-> & b' & F & ->)|(-> & b1 & t & b2 & b1' & t' & E & F & (t1 & k & c & g & t2 & -> & ->) & ->)].
    + left. split; [reflexivity|]. rewrite (FM _ _ F). reflexivity.
    + right. split; [reflexivity|]. exists b1, t1, k, c, g, t2, b2. split; [exact E|]. rewrite (FM _ _ F). reflexivity.
  - intros t p t' J HT. apply get_inv in HT. apply (modify_loop (c_neg CO) t [] t) in HT; [|reflexivity|].
    + cbn [app] in HT. destruct HT as [HT|(-> & l1 & [k c] & l2 & g & -> & ->)]; [left; exact HT|]. right. split; [reflexivity|]. exists l1, k, c, g, l2. auto.
    + apply wf_iff in W as (_ & _ & _ & W4). apply In_nth_error in J as [i J]. apply (W4 i t J).
Qed.

(** The loop of [filter_impl] on one table. *)
Lemma erase_split (k : K) c (t1 t2 : tbl) : ~ In k (map fst t1) -> ~ In k (map fst t2) -> tbl_erase KO (t1 ++ (k, c) :: t2) k = t1 ++ t2.
Proof.
  intros N1 N2. unfold tbl_erase. rewrite filter_app. cbn [filter fst].
  assert (ID : forall l : tbl, ~ In k (map fst l) -> filter (fun e => negb (k_eqb KO (fst e) k)) l = l).
  { induction l as [|e l IH]; intros N; [reflexivity|]. cbn [filter]. cbn in N. destruct (k_eqb KO (fst e) k) eqn:E; [apply k_eqb_iff in E; tauto|]. cbn [negb]. f_equal. apply IH. tauto. }
  rewrite (proj2 (k_eqb_iff k k) eq_refl), !ID; auto.
Qed.
Lemma filter_keys (f : K * C -> bool) (l : tbl) k : ~ In k (map fst l) -> ~ In k (map fst (filter f l)).
Proof. intros N J. apply N. apply in_map_iff in J as (e & E & J). apply filter_In in J as [J _]. apply in_map_iff. eauto. Qed.
Lemma filter_loop f : forall (l done t : tbl) o t', (forall e, In e l -> f e <> UB) -> t = filter (fun e => match f e with Ok b => b | _ => false end) done ++ l -> NoDup (map fst (done ++ l)) ->
  mfor l (fun e => mbind mcall (fun _ => mbind (mres (f e)) (fun b : bool => if b then mret tt else erase KO (fst e)))) t o t' ->
  (o = Some tt /\ (forall e, In e l -> exists b, f e = Ok b) /\ t' = filter (fun e => match f e with Ok b => b | _ => false end) (done ++ l)) \/
  (o = None /\ exists l1 l2, l = l1 ++ l2 /\ t' = filter (fun e => match f e with Ok b => b | _ => false end) (done ++ l1) ++ l2).
Proof.
  set (fb := fun e => match f e with Ok b => b | _ => false end). induction l as [|[k c] l IH]; intros done t o t' NU -> ND H.
  - destruct H as [-> ->]. left. rewrite !app_nil_r. split; [reflexivity|]. split; [intros ? []|reflexivity].
  - assert (NK : ~ In k (map fst (filter fb done)) /\ ~ In k (map fst l)).
    { rewrite map_app in ND. cbn [map fst] in ND. apply NoDup_remove_2 in ND. rewrite in_app_iff in ND. split; [apply filter_keys|]; tauto. }
    destruct NK as [N1 N2]. destruct H as [(u & t1 & H1 & H2)|(-> & H1)].
    + apply call_inv in H1 as [H1|[X _]]; [|discriminate]. apply res_inv in H1 as [(b & EB & H1)|(X & _)]; [|discriminate|apply NU; left; reflexivity].
      assert (ET : t1 = filter fb (done ++ [(k, c)]) ++ l).
      { rewrite filter_app. cbn [filter]. unfold fb at 2. rewrite EB. destruct b; destruct H1 as [_ ->]; [rewrite <- app_assoc; reflexivity|]. cbn [fst]. rewrite erase_split, app_nil_r by auto. reflexivity. }
      subst t1. apply (IH (done ++ [(k, c)])) in H2; [|intros e J; apply NU; right; exact J|reflexivity|rewrite <- app_assoc; exact ND]. rewrite <- app_assoc in H2.
      destruct H2 as [(-> & H2 & ->)|(-> & l1 & l2 & -> & ->)].
      * left. split; [reflexivity|]. split; [|reflexivity]. intros e [<-|J]; eauto.
      * right. split; [reflexivity|]. exists ((k, c) :: l1), l2. split; [reflexivity|]. rewrite <- app_assoc. reflexivity.
    + right. split; [reflexivity|]. exists [], ((k, c) :: l). split; [reflexivity|]. rewrite app_nil_r.
      apply call_inv in H1 as [H1|[_ ->]]; [|reflexivity]. apply res_inv in H1 as [(b & EB & H1)|(_ & -> & _)]; [destruct b; destruct H1; discriminate|reflexivity|apply NU; left; reflexivity].
Qed.

(** Tables which lost some elements. *)
Definition thinner (t t' : tbl) : Prop := incl t' t /\ (NoDup (map fst t) -> NoDup (map fst t')) /\ (len t' <= len t)%nat.
Lemma thinner_refl t : thinner t t. Proof. split; [apply incl_refl|auto]. Qed.
Lemma filter_len {A} f (l : list A) : (len (filter f l) <= len l)%nat. Proof. induction l as [|x l IH]; cbn; [lia|]. destruct (f x); cbn; lia. Qed.
Lemma filter_thinner f t : thinner t (filter f t).
Proof.
  split; [intros e J; apply filter_In in J; tauto|]. split; [|apply filter_len]. induction t as [|[k c] t IH]; intros N; [exact N|]. cbn [map fst] in N. inversion N; subst. cbn [filter].
  destruct (f (k, c)); [|auto]. cbn [map fst]. constructor; [apply filter_keys; auto|auto].
Qed.
Lemma partial_thinner f t1 t2 : thinner (t1 ++ t2) (filter f t1 ++ t2).
Proof.
  assert (F := filter_thinner f t1). destruct F as (F1 & F2 & F3). split; [intros e; rewrite !in_app_iff; intros [J|J]; auto|]. split; [|rewrite !app_length; lia].
  rewrite !map_app. intros N. induction t1 as [|[k c] t1 IH]; [exact N|]. cbn [map fst app] in N. inversion N as [|? ? N1 N2]; subst. cbn [filter].
  assert (X : NoDup (map fst (filter f t1) ++ map fst t2)) by (apply IH; [apply filter_thinner|apply filter_thinner|apply filter_thinner|exact N2]).
  destruct (f (k, c)); [|exact X]. cbn [map fst app]. constructor; [|exact X]. rewrite in_app_iff in *. intros [J|J]; apply N1; [left|auto]. apply in_map_iff in J as (e & E & J). apply filter_In in J as [J _]. apply in_map_iff. eauto.
Qed.
Lemma thin_all (s : series) ts : WF s -> Forall2 thinner (s_tables s) ts -> WF (set_tables s ts) /\ incl (terms (set_tables s ts)) (terms s).
Proof.
  intros W F. apply wf_iff in W as (W1 & W2 & W3 & W4). split.
  - apply wf_iff. split; [exact W1|]. split; [exact W2|]. split. { cbn [s_tables set_tables s_log2]. rewrite <- (Forall2_length _ _ _ F). exact W3. }
    cbn [s_tables set_tables s_log2 s_ss]. intros i t' Ht'. assert (exists t, nth_error (s_tables s) i = Some t /\ thinner t t') as (t & Ht & I & N & L).
    { clear -F Ht'. revert i Ht'. induction F as [|a b l l' r F IH]; intros [|i] H; try discriminate; cbn in *; [injection H as <-; eauto|eauto]. }
    destruct (W4 i t Ht) as (A & B & D). split; [apply N; exact A|]. split; [intros k c J; apply B, I, J|]. intros X. specialize (D X). lia.
  - unfold terms, set_tables. cbn [s_tables]. clear -F. induction F as [|a b l l' r F IH]; [apply incl_refl|]. cbn [List.concat]. intros e. rewrite !in_app_iff. intros [J|J]; [left; apply r, J|right; apply IH, J].
Qed.

Lemma filter_inv f (s : series) o s' : (forall e, In e (terms s) -> f e <> UB) -> WF s -> x_filter KO f s o s' ->
  (o = Some tt /\ series_filter_res f s = Ok s') \/ (o = None /\ WF s' /\ incl (terms s') (terms s) /\ same_meta s s').
Proof.
  intros NU W H. unfold x_filter in H. apply get_inv in H. set (fb := fun e => match f e with Ok b => b | _ => false end).
  apply (tables_loop _ (fun t t' => (forall e, In e t -> exists b, f e = Ok b) /\ t' = filter fb t) (fun t t' => thinner t t') (s_tables s) []) in H; [| |reflexivity].
  - cbn [app] in H. destruct H as [(-> & b' & F & ->)|(-> & b1 & t & b2 & b1' & t' & E & F & Q & ->)].
    + left. split; [reflexivity|]. unfold series_filter_res. clear W.
      assert (RF : forall t, (forall e, In e t -> exists b, f e = Ok b) -> rfilter f t = Ok (filter fb t)).
      { induction t as [|e t IH]; intros A; [reflexivity|]. cbn [rfilter filter]. destruct (A e (or_introl eq_refl)) as (b & Eb). unfold fb at 1. rewrite Eb. cbn [bind]. rewrite IH by (intros; apply A; right; auto). cbn [bind]. destruct b; reflexivity. }
      assert (RM : rmap (rfilter f) (s_tables s) = Ok b'). { clear -F RF. induction F as [|a b l l' (A & ->) F IH]; [reflexivity|]. cbn [rmap]. rewrite RF by exact A. cbn [bind]. rewrite IH. reflexivity. }
      rewrite RM. reflexivity.
    + right. split; [reflexivity|]. destruct (thin_all s (b1' ++ t' :: b2) W) as [W' I].
      * rewrite E. apply Forall2_app; [|constructor; [exact Q|]].
        -- clear -F. induction F as [|a b l l' (A & ->) F IH]; constructor; auto. apply filter_thinner.
        -- clear. induction b2; constructor; auto. apply thinner_refl.
      * split; [exact W'|]. split; [exact I|]. repeat split.
  - intros t p t' J HT. apply get_inv in HT. apply (filter_loop f t [] t) in HT; [|intros e JE; apply NU; apply in_concat; eauto|reflexivity|].
    + cbn [app] in HT. destruct HT as [HT|(-> & l1 & l2 & -> & ->)]; [left; exact HT|]. right. split; [reflexivity|]. apply partial_thinner.
    + apply wf_iff in W as (_ & _ & _ & W4). apply In_nth_error in J as [i J]. apply (W4 i t J).
Qed.

(** The loop of the multiplication by a scalar, if it is completed. *)
Lemma mul_loop f : forall (l done t t' : tbl), t = map (fun e => (fst e, f (snd e))) done ++ l -> NoDup (map fst (done ++ l)) ->
  mfor l (fun e => mbind (modify KO (fst e) f) (fun _ => mcall)) t (Some tt) t' -> t' = map (fun e => (fst e, f (snd e))) (done ++ l).
Proof.
  induction l as [|[k c] l IH]; intros done t t' -> ND H.
  - destruct H as [_ ->]. rewrite !app_nil_r. reflexivity.
  - assert (NK : ~ In k (map fst (map (fun e => (fst e, f (snd e))) done)) /\ ~ In k (map fst l)).
    { rewrite map_map. cbn [fst]. rewrite map_app in ND. cbn [map fst] in ND. apply NoDup_remove_2 in ND. rewrite in_app_iff in ND. tauto. }
    destruct NK as [N1 N2]. apply for_cons in H as (t1 & H1 & H2). destruct H1 as [(u & t2 & H1 & H3)|(X & _)]; [|discriminate]. destruct H1 as [[_ ->]|[X _]]; [|discriminate]. destruct H3 as [-> _]. cbn [fst] in H2. rewrite update_split in H2 by auto.
    apply (IH (done ++ [(k, c)])) in H2; [|rewrite map_app, <- app_assoc; reflexivity|rewrite <- app_assoc; exact ND]. rewrite <- app_assoc in H2. exact H2.
Qed.
Lemma erase_loop : forall (l t t' : tbl), mfor l (fun e => erase KO (fst e)) t (Some tt) t' -> t' = fold_left (fun t k => tbl_erase KO t k) (map fst l) t.
Proof. induction l as [|e l IH]; intros t t' H; [destruct H; auto|]. apply for_cons in H as (t1 & [_ ->] & H2). cbn [map fold_left]. apply IH. exact H2. Qed.
Lemma scalar_tables_inv c (s : series) s' : WF s ->
  mfor (seq 0 (len (s_tables s))) (fun i => on_table i (mbind mget (fun t => mbind (mfor t (fun e => mbind (modify KO (fst e) (fun x => c_mul CO x c)) (fun _ => mcall)))
            (fun _ => mbind mget (fun t2 => mfor (filter (fun e => c_is_zero CO (snd e)) t2) (fun e => erase KO (fst e))))))) s (Some tt) s' ->
  s' = set_tables s (map (scalar_mul_table KO CO c) (s_tables s)).
Proof.
  intros W H. apply (tables_loop _ (fun t t' => t' = scalar_mul_table KO CO c t) (fun _ _ => True) (s_tables s) []) in H; [| |reflexivity].
  - cbn [app] in H. destruct H as [(_ & b' & F & ->)|(X & _)]; [|discriminate]. f_equal. clear -F. induction F as [|a b l l' -> F IH]; [reflexivity|]. cbn [map]. congruence.
  - intros t o t' J HT. destruct o as [[]|]; [left|right; auto]. split; [reflexivity|]. apply get_inv in HT. destruct HT as [(u & t1 & H1 & H2)|(X & _)]; [|discriminate]. destruct u.
    apply (mul_loop (fun x => c_mul CO x c) t [] t) in H1; [|reflexivity|apply wf_iff in W as (_ & _ & _ & W4); apply In_nth_error in J as [i J]; apply (W4 i t J)].
    apply get_inv in H2. apply erase_loop in H2. subst. reflexivity.
Qed.
End XP2.
