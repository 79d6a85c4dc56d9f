(** Proofs about series.hpp, part 5: scalar multiplication and division, filtering, degree, trimming, symbol addition, construction and conversion. *)
From Coq Require Import ZArith List Bool String Arith Sorted Permutation Lia Ring Ring_theory.
From Verif Require Import Base IntModel SymModel SymSpec SymProofs P_Sym PMonSpec PMonProofs PMonProofs2 KeyOps SeriesModel SeriesModel2 SeriesSpec SeriesProofs SeriesProofs2 SeriesProofs3 SeriesProofs4.
Import ListNotations.
Open Scope Z_scope.

Section P5.
Context {K C Tag : Type} (KO : key_ops K) (KS : key_sem K) (CO : cf_ops C) (PO : tbl_policy (K * C)) (TO : tag_ops Tag).
Hypothesis KL : key_laws KO KS.
Hypothesis CL : cf_laws CO.
Notation "0c" := (c_zero CO).
Infix "+c" := (c_add CO) (at level 50, left associativity).
Infix "-c" := (c_sub CO) (at level 50, left associativity).
Infix "*c" := (c_mul CO) (at level 40, left associativity).
Notation "-c x" := (c_neg CO x) (at level 35).
Add Ring Cring5 : (cl_ring CO CL).
Notation series := (series K C Tag).

(** Replacing every table by another one with fewer keys. *)
Lemma map_tables_ok (F : list (K * C) -> list (K * C)) (s : series) : wf KO KS CO s ->
  (forall t, In t (s_tables s) -> NoDup (map fst t) -> NoDup (map fst (F t)) /\ (forall k, In k (map fst (F t)) -> In k (map fst t)) /\
     (forall k c, In (k, c) (F t) -> c <> 0c) /\ (len (F t) <= len t)%nat) ->
  wf KO KS CO (set_tables s (map F (s_tables s))).
Proof.
  intros W H. apply wf_iff in W as (W1 & W2 & W3 & W4). apply wf_iff. unfold wf'. cbn [set_tables s_ss s_log2 s_tables].
  split; [auto|]. split; [auto|]. split; [rewrite map_length; auto|].
  intros i t' Ht. rewrite nth_error_map in Ht. destruct (nth_error (s_tables s) i) as [t|] eqn:E; [|discriminate]. cbn in Ht. inversion Ht; subst t'.
  destruct (W4 i t E) as (N & X & M). destruct (H t (nth_error_In _ _ E) N) as (A1 & A2 & A3 & A4). split; [exact A1|]. split; [|intros L; specialize (M L); lia].
  intros k c I. assert (J : In k (map fst t)) by (apply A2; apply in_map_iff; exists (k, c); auto).
  apply in_map_iff in J as ([k' c'] & Ek & J). cbn in Ek. subst k'. destruct (X k c' J) as (V1 & _ & V3). eauto.
Qed.

Lemma filter_keys (f : K * C -> bool) t k : In k (map fst (filter f t)) -> In k (map fst t).
Proof. intros I. apply in_map_iff in I as (e & <- & I). apply filter_In in I as [I _]. apply in_map. exact I. Qed.

Lemma filter_nodup (f : K * C -> bool) t : NoDup (map fst t) -> NoDup (map fst (filter f t)).
Proof.
  induction t as [|e t IH]; intros N; [constructor|]. cbn [map] in N. inversion N; subst. cbn [filter]. destruct (f e); [|auto]. cbn [map]. constructor; auto.
  intros I. apply H1. eapply filter_keys; eauto.
Qed.

Lemma filter_len {A} (f : A -> bool) t : (len (filter f t) <= len t)%nat.
Proof. induction t as [|e t IH]; cbn [filter List.length]; [lia|]. destruct (f e); cbn [List.length]; lia. Qed.

Lemma concat_filter {A} (f : A -> bool) ts : List.concat (map (filter f) ts) = filter f (List.concat ts).
Proof. induction ts as [|t ts IH]; [reflexivity|]. cbn [map List.concat]. rewrite IH, filter_app. reflexivity. Qed.

Lemma psum_filter_nz (P : K -> bool) (t : list (K * C)) : psum CO P (filter (fun e => negb (c_is_zero CO (snd e))) t) = psum CO P t.
Proof.
  induction t as [|[k c] t IH]; [reflexivity|]. cbn [filter snd]. destruct (c_is_zero CO c) eqn:E; cbn [negb].
  - apply (cl_zero _ CL) in E. subst c. rewrite (psum_cons CO CL), IH. cbn [fst snd]. destruct (P k); cbn [ifP]; ring.
  - rewrite !(psum_cons CO CL), IH. reflexivity.
Qed.

(** ** Filtering *)
Lemma filter_terms f (s : series) : terms (series_filter f s) = filter f (terms s).
Proof. unfold terms, series_filter, set_tables. cbn [s_tables]. apply concat_filter. Qed.

Lemma filter_ok f (s : series) : wf KO KS CO s -> wf KO KS CO (series_filter f s) /\ same_meta s (series_filter f s).
Proof.
  intros W. split; [|repeat split]. apply map_tables_ok; auto. intros t It N. split; [apply filter_nodup; exact N|].
  split; [intros k; apply filter_keys|]. split; [|apply filter_len].
  intros k c I. apply filter_In in I as [I _]. apply (wf_nonzero _ _ _ _ W k c). unfold terms. apply in_concat. eauto.
Qed.

Lemma filtered_table (f : K * C -> bool) (t : list (K * C)) : forall acc : list (K * C), NoDup (map fst (t ++ acc)) ->
  Permutation (fold_left (fun out e => if f e then fst (tbl_try_emplace KO PO out (fst e) (snd e)) else out) t acc) (filter f t ++ acc).
Proof.
  induction t as [|[k c] t IH]; intros acc N; cbn [fold_left filter]; [apply Permutation_refl|]. cbn [app map fst] in N. inversion N; subst.
  destruct (f (k, c)).
  - unfold tbl_try_emplace at 2. cbn [fst snd]. assert (NI : ~ In k (map fst acc)) by (intros I; apply H1; rewrite map_app; apply in_or_app; auto).
    assert (tbl_find KO acc k = None) as ->. { apply (SeriesProofs.find_none KO KS KL). exact NI. }
    cbn [fst]. eapply perm_trans; [apply IH|].
    + eapply Permutation_NoDup; [|exact N]. cbn. rewrite map_app.
      eapply perm_trans; [apply Permutation_middle|]. rewrite map_app. apply Permutation_app_head.
      change (k :: map fst acc) with (map fst ((k, c) :: acc)). apply Permutation_map, Permutation_sym, reorder_perm.
    + eapply perm_trans; [apply Permutation_app_head, reorder_perm|]. apply Permutation_sym. apply (Permutation_middle (filter f t) acc (k, c)).
  - apply IH. exact H2.
Qed.

Lemma filtered_ok f (s : series) : wf KO KS CO s -> exists r, series_filtered KO PO f s = Ok r /\ wf KO KS CO r /\ same_meta s r /\
  Permutation (terms r) (filter f (terms s)).
Proof.
  intros W. pose proof W as W0. apply wf_iff in W as (W1 & W2 & W3 & W4). unfold series_filtered, get_s_size.
  destruct (set_n_segments_ok KO KS CO (Series [[]] 0 (s_tag s) (s_ss s)) (s_log2 s) W2 W1) as [E0 _]. rewrite E0. cbn [bind s_tag s_ss].
  set (F := fun in_table : list (K * C) => fold_left (fun out e => if f e then fst (tbl_try_emplace KO PO out (fst e) (snd e)) else out) in_table []).
  assert (PF : forall t, NoDup (map fst t) -> Permutation (F t) (filter f t)).
  { intros t N. unfold F. eapply perm_trans; [apply filtered_table; rewrite app_nil_r; exact N|]. rewrite app_nil_r. apply Permutation_refl. }
  eexists. split; [reflexivity|]. unfold set_tables. cbn [s_log2 s_tag s_ss]. fold (set_tables s (map F (s_tables s))). split; [|split; [repeat split|]].
  - apply map_tables_ok; auto. intros t It N. pose proof (PF t N) as PM. split; [|split; [|split]].
    + eapply Permutation_NoDup; [apply Permutation_map, Permutation_sym, PM|]. apply filter_nodup. exact N.
    + intros k I. apply (filter_keys f). eapply Permutation_in; [apply Permutation_map, PM|exact I].
    + intros k c I. eapply Permutation_in in I; [|exact PM]. apply filter_In in I as [I _]. apply (wf_nonzero _ _ _ _ W0 k c). unfold terms. apply in_concat. eauto.
    + rewrite (Permutation_length PM). apply filter_len.
  - unfold terms. cbn [set_tables s_tables]. rewrite <- concat_filter.
    assert (A : forall t, In t (s_tables s) -> NoDup (map fst t)). { intros t It. apply In_nth_error in It as [i Hi]. apply (W4 i t Hi). }
    clear -A PF. induction (s_tables s) as [|t ts IH]; [apply perm_nil|]. cbn [map List.concat]. apply Permutation_app; [apply PF, A; left; reflexivity|].
    apply IH. intros u Iu. apply A. right. exact Iu.
Qed.

(** ** Scalar multiplication and division *)
Lemma erase_fold ks : forall t : list (K * C), fold_left (fun t k => tbl_erase KO t k) ks t = filter (fun e => forallb (fun k => negb (k_eqb KO (fst e) k)) ks) t.
Proof.
  induction ks as [|k ks IH]; intros t; cbn [fold_left].
  - induction t as [|e t IHt]; [reflexivity|]. cbn [filter forallb]. f_equal. exact IHt.
  - rewrite IH. unfold tbl_erase. clear IH. induction t as [|e t IHt]; [reflexivity|]. cbn [filter forallb]. destruct (negb (k_eqb KO (fst e) k)); cbn [filter andb].
    + destruct (forallb _ ks); rewrite IHt; reflexivity.
    + exact IHt.
Qed.

Lemma scalar_table b t : NoDup (map fst t) ->
  scalar_mul_table KO CO b t = filter (fun e => negb (c_is_zero CO (snd e))) (map (fun e => (fst e, snd e *c b)) t).
Proof.
  intros N. unfold scalar_mul_table. set (t1 := map (fun e => (fst e, snd e *c b)) t).
  assert (N1 : NoDup (map fst t1)) by (unfold t1; rewrite map_map; exact N). rewrite erase_fold. apply filter_ext_in. intros [k c] I. cbn [fst snd].
  apply eq_true_iff_eq. rewrite forallb_forall, negb_true_iff. split.
  - intros H. destruct (c_is_zero CO c) eqn:E; [|reflexivity]. exfalso. specialize (H k). rewrite (keqb_refl KO KS KL) in H. discriminate H.
    apply in_map_iff. exists (k, c). split; auto. apply filter_In. auto.
  - intros H k' I'. apply negb_true_iff, (keqb_neq KO KS KL). intros <-. apply in_map_iff in I' as ([k2 c2] & E & I'). cbn in E. subst k2. apply filter_In in I' as [I' Z].
    cbn [snd] in Z. assert (c = c2); [|congruence]. rewrite <- (lookup_ok KO KS CO KL CL t1 k c N1 I). apply (lookup_ok KO KS CO KL CL t1 k c2 N1 I').
Qed.

Lemma scalar_mul_ok (a : series) b : wf KO KS CO a ->
  wf KO KS CO (series_scalar_mul KO CO a b) /\ s_ss (series_scalar_mul KO CO a b) = s_ss a /\ s_tag (series_scalar_mul KO CO a b) = s_tag a /\
  (forall P, psum CO P (terms (series_scalar_mul KO CO a b)) = psum CO P (terms a) *c b) /\
  (len (terms (series_scalar_mul KO CO a b)) <= len (terms a))%nat.
Proof.
  intros W. unfold series_scalar_mul. destruct (series_empty a || c_is_zero CO b) eqn:E.
  - split; [|split; [reflexivity|split; [reflexivity|split]]].
    + destruct (set_n_segments_ok KO KS CO (Series [[]] 0 (s_tag a) (s_ss a)) 0) as [_ X]; [cbn; lia|apply (wf_ss _ _ _ _ W)|exact X].
    + intros P. change (terms _) with (@nil (K * C)) at 1. rewrite psum_nil. apply orb_true_iff in E as [E|E].
      * apply empty_terms in E. rewrite E, psum_nil. ring.
      * apply (cl_zero _ CL) in E. subst b. ring.
    + cbn. lia.
  - assert (W0 := W). apply wf_iff in W0 as (_ & _ & _ & W4).
    assert (NT : forall t, In t (s_tables a) -> NoDup (map fst t)) by (intros t It; apply In_nth_error in It as [i Hi]; apply (W4 i t Hi)).
    assert (TT : terms (set_tables a (map (scalar_mul_table KO CO b) (s_tables a))) = filter (fun e => negb (c_is_zero CO (snd e))) (map (fun e => (fst e, snd e *c b)) (terms a))).
    { unfold terms. cbn [set_tables s_tables]. rewrite concat_map, <- concat_filter, map_map. f_equal. apply map_ext_in. intros t It. apply scalar_table. auto. }
    split; [|split; [reflexivity|split; [reflexivity|split]]].
    + apply map_tables_ok; auto. intros t It N. rewrite (scalar_table b t N). split; [apply filter_nodup; rewrite map_map; exact N|].
      split; [intros k I; apply filter_keys in I; rewrite map_map in I; exact I|]. split.
      * intros k c I. apply filter_In in I as [_ Z]. cbn [snd] in Z. intros ->. rewrite (proj2 (cl_zero _ CL _)) in Z by reflexivity. discriminate.
      * eapply Nat.le_trans; [apply filter_len|]. rewrite map_length. lia.
    + intros P. rewrite TT, psum_filter_nz. apply (psum_map CO CL P (fun k => k) (fun c => c *c b) CO); [ring|intros; ring].
    + rewrite TT. eapply Nat.le_trans; [apply filter_len|]. rewrite map_length. lia.
Qed.

Lemma rmap_spec {A B} (f : A -> res B) : forall l,
  (exists l', rmap f l = Ok l' /\ Forall2 (fun a b => f a = Ok b) l l') \/
  (exists l1 a l2, l = l1 ++ a :: l2 /\ (forall x, In x l1 -> exists b, f x = Ok b) /\ ((exists e, f a = Throw e /\ rmap f l = Throw e) \/ (f a = UB /\ rmap f l = UB))).
Proof.
  induction l as [|a l IH]; [left; exists []; split; [reflexivity|constructor]|]. cbn [rmap]. destruct (f a) as [b| |] eqn:E; cbn [bind].
  - destruct IH as [(l' & E' & F)|(l1 & x & l2 & El & H1 & H2)].
    + left. exists (b :: l'). rewrite E'. split; [reflexivity|constructor; auto].
    + right. exists (a :: l1), x, l2. split; [subst; reflexivity|]. split; [intros y [<-|I]; eauto|].
      destruct H2 as [(e & He & Hr)|[He Hr]]; rewrite Hr; [left; exists e|right]; auto.
  - right. exists [], a, l. split; [reflexivity|]. split; [intros x []|]. left. exists e. auto.
  - right. exists [], a, l. split; [reflexivity|]. split; [intros x []|]. right. auto.
Qed.

Lemma scalar_div_ok {U} (cdiv : C -> U -> res C) (x : series) (y : U) : wf KO KS CO x ->
  (exists r, series_scalar_div CO cdiv x y = Ok r /\ wf KO KS CO r /\ same_meta x r /\
     (forall k c, In (k, c) (terms x) -> exists d, cdiv c y = Ok d) /\
     (forall k d, In (k, d) (terms r) <-> d <> 0c /\ exists c, In (k, c) (terms x) /\ cdiv c y = Ok d)) \/
  (exists k c, In (k, c) (terms x) /\ ((exists e, cdiv c y = Throw e /\ series_scalar_div CO cdiv x y = Throw e) \/ (cdiv c y = UB /\ series_scalar_div CO cdiv x y = UB))).
Proof.
  intros W. unfold series_scalar_div.
  set (D := fun e : K * C => c <- cdiv (snd e) y ;; Ok (fst e, c)).
  set (T := fun t : list (K * C) => es <- rmap D t ;; Ok (filter (fun e => negb (c_is_zero CO (snd e))) es)).
  assert (HD : forall k c e', D (k, c) = Ok e' <-> exists d, cdiv c y = Ok d /\ e' = (k, d)).
  { intros k c e'. unfold D. cbn [fst snd]. destruct (cdiv c y); cbn [bind]; split; try discriminate; try (intros (d & ? & ?); discriminate).
    - intros H. inversion H. eauto.
    - intros (d & Hd & ->). inversion Hd. reflexivity. }
  destruct (rmap_spec T (s_tables x)) as [(ts & E & F)|(l1 & t & l2 & El & H1 & H2)].
  - left. rewrite E. cbn [bind]. eexists. split; [reflexivity|].
    assert (TB : forall t t', T t = Ok t' -> NoDup (map fst t) -> NoDup (map fst t') /\ (forall k, In k (map fst t') -> In k (map fst t)) /\ (forall k c, In (k, c) t' -> c <> 0c) /\ (len t' <= len t)%nat /\
      (forall k c, In (k, c) t -> exists d, cdiv c y = Ok d) /\ (forall k d, In (k, d) t' <-> d <> 0c /\ exists c, In (k, c) t /\ cdiv c y = Ok d)).
    { intros t t' HT N. unfold T in HT. destruct (rmap_spec D t) as [(es & Ee & Fe)|(? & ? & ? & _ & _ & [(? & _ & Hr)|[_ Hr]])]; try (rewrite Hr in HT; discriminate).
      rewrite Ee in HT. cbn [bind] in HT. inversion HT; subst t'. clear HT Ee.
      assert (KE : map fst es = map fst t).
      { clear -Fe HD. induction Fe as [|[k c] b l l' r F IH]; [reflexivity|]. apply HD in r as (d & _ & ->). cbn [map fst]. rewrite IH. reflexivity. }
      split; [apply filter_nodup; rewrite KE; exact N|]. split; [intros k I; apply filter_keys in I; rewrite KE in I; exact I|].
      split. { intros k c I. apply filter_In in I as [_ Z]. cbn [snd] in Z. intros ->. rewrite (proj2 (cl_zero _ CL _)) in Z by reflexivity. discriminate. }
      split. { eapply Nat.le_trans; [apply filter_len|]. rewrite <- (map_length fst es), KE, map_length. lia. }
      split. { intros k c I. clear -Fe HD I. induction Fe as [|[k' c'] b l l' r F IH]; [contradiction|]. destruct I as [E|I]; [|auto]. inversion E; subst. apply HD in r as (d & Hd & _). eauto. }
      intros k d. rewrite filter_In. cbn [snd]. rewrite negb_true_iff, <- not_true_iff_false, (cl_zero _ CL). split.
      - intros [I Z]. split; [exact Z|]. clear -Fe HD I. induction Fe as [|[k' c'] b l l' r F IH]; [contradiction|]. apply HD in r as (d' & Hd & ->).
        destruct I as [E|I]; [inversion E; subst; exists c'; split; [left; reflexivity|auto]|]. destruct (IH I) as (c & Ic & Hc). exists c. split; [right|]; auto.
      - intros [Z (c & Ic & Hc)]. split; [|exact Z]. clear -Fe HD Ic Hc. induction Fe as [|[k' c'] b l l' r F IH]; [contradiction|]. apply HD in r as (d' & Hd & ->).
        destruct Ic as [E|I]; [inversion E; subst; rewrite Hc in Hd; inversion Hd; left; reflexivity|]. right. auto. }
    assert (W0 := W). apply wf_iff in W0 as (W1 & W2 & W3 & W4).
    assert (NT : forall t, In t (s_tables x) -> NoDup (map fst t)) by (intros t It; apply In_nth_error in It as [i Hi]; apply (W4 i t Hi)).
    split; [|split; [repeat split|]].
    + apply wf_iff. unfold wf'. cbn [set_tables s_ss s_log2 s_tables]. split; auto. split; auto. split; [rewrite <- (Forall2_length _ _ _ F); exact W3|].
      intros i t' Ht'. assert (exists t, nth_error (s_tables x) i = Some t /\ T t = Ok t') as (t & Ht & HT).
      { clear -F Ht'. revert i Ht'. induction F as [|a b l l' r F IH]; intros i Ht'; [destruct i; discriminate|]. destruct i as [|i]; [cbn in Ht'; inversion Ht'; subst; exists a; auto|]. apply IH. exact Ht'. }
      destruct (W4 i t Ht) as (N & X & M). destruct (TB t t' HT N) as (A1 & A2 & A3 & A4 & _). split; [exact A1|]. split; [|intros L; specialize (M L); lia].
      intros k c I. assert (J : In k (map fst t)) by (apply A2; apply in_map_iff; exists (k, c); auto).
      apply in_map_iff in J as ([k' c'] & Ek & J). cbn in Ek. subst k'. destruct (X k c' J) as (V1 & _ & V3). eauto.
    + unfold terms. cbn [set_tables s_tables]. clear -F TB NT. induction F as [|t t' l l' r F IH]; cbn [List.concat].
      * split; [intros k c []|]. intros k d. split; [intros []|]. intros [_ (c & [] & _)].
      * destruct (TB t t' r (NT t (or_introl eq_refl))) as (_ & _ & _ & _ & B1 & B2). destruct IH as [I1 I2]; [intros u Iu; apply NT; right; exact Iu|]. split.
        -- intros k c I. apply in_app_or in I as [I|I]; eauto.
        -- intros k d. rewrite in_app_iff, B2, I2. split.
           ++ intros [[Z (c & Ic & Hc)]|[Z (c & Ic & Hc)]]; (split; [exact Z|]); exists c; rewrite in_app_iff; auto.
           ++ intros [Z (c & Ic & Hc)]. apply in_app_or in Ic as [Ic|Ic]; [left|right]; split; auto; exists c; auto.
  - right. assert (It : In t (s_tables x)) by (rewrite El; apply in_or_app; right; left; reflexivity).
    assert (TE : exists k c, In (k, c) t /\ ((exists e, cdiv c y = Throw e /\ T t = Throw e) \/ (cdiv c y = UB /\ T t = UB))).
    { assert (NT : forall t', T t <> Ok t') by (intros t' Et; destruct H2 as [(? & Hq & _)|[Hq _]]; congruence). unfold T in *.
      destruct (rmap_spec D t) as [(es & Ee & _)|(m1 & [k c] & m2 & Em & _ & Hm)]; [rewrite Ee in NT; elim (NT _ eq_refl)|].
      exists k, c. split; [rewrite Em; apply in_or_app; right; left; reflexivity|]. unfold D in Hm at 1 3. cbn [fst snd] in Hm.
      destruct (cdiv c y) as [d|e|]; cbn [bind] in Hm.
      - destruct Hm as [(? & Hq & _)|[Hq _]]; discriminate.
      - left. exists e. split; [reflexivity|]. destruct Hm as [(? & Hq & Hr)|[Hq _]]; [|discriminate]. inversion Hq; subst. rewrite Hr. reflexivity.
      - right. split; [reflexivity|]. destruct Hm as [(? & Hq & Hr)|[_ Hr]]; [discriminate|]. rewrite Hr. reflexivity. }
    destruct TE as (k & c & Ik & Hk). exists k, c. split; [unfold terms; apply in_concat; eauto|].
    destruct Hk as [(e & He & Ht)|[He Ht]].
    + left. exists e. split; [exact He|]. destruct H2 as [(? & Hq & Hr)|[Hq _]]; [|congruence]. rewrite Ht in Hq. inversion Hq; subst. rewrite Hr. reflexivity.
    + right. split; [exact He|]. destruct H2 as [(? & Hq & Hr)|[_ Hr]]; [congruence|]. rewrite Hr. reflexivity.
Qed.
End P5.
