From Coq Require Import ZArith List Bool String Ascii Sorted Lia.
From Verif Require Import Base SymModel SymSpec.
Import ListNotations.
Open Scope nat_scope.

Lemma str_lt_iff : forall a b, str_lt a b = true <-> slt a b.
Proof. intros. unfold str_lt, slt. destruct (String.compare a b); intuition congruence. Qed.

Lemma compare_refl : forall a, String.compare a a = Eq.
Proof.
  induction a; cbn; auto. 
  assert (Ascii.compare a a = Eq) as ->; auto.
  unfold Ascii.compare. apply N.compare_refl.
Qed.

Lemma slt_irrefl : forall a, ~ slt a a.
Proof. intros a H. unfold slt in H. rewrite compare_refl in H. discriminate. Qed.

Lemma ascii_compare_eq : forall a b, Ascii.compare a b = Eq <-> a = b.
Proof.
  split; [apply Ascii.compare_eq_iff|]. intros ->. unfold Ascii.compare. apply N.compare_refl.
Qed.

Lemma ascii_lt_trans : forall a b c, Ascii.compare a b = Lt -> Ascii.compare b c = Lt -> Ascii.compare a c = Lt.
Proof. unfold Ascii.compare. intros a b c H1 H2. rewrite N.compare_lt_iff in *. lia. Qed.

Lemma slt_trans : forall a b c, slt a b -> slt b c -> slt a c.
Proof.
  unfold slt. induction a as [|x a]; intros [|y b] [|z c]; cbn; try congruence.
  intros H1 H2.
  destruct (Ascii.compare x y) eqn:E1; try discriminate.
  - apply ascii_compare_eq in E1. subst y. destruct (Ascii.compare x z) eqn:E2; auto. eapply IHa; eauto.
  - destruct (Ascii.compare y z) eqn:E2; try discriminate.
    + apply ascii_compare_eq in E2. subst z. rewrite E1. reflexivity.
    + rewrite (ascii_lt_trans _ _ _ E1 E2). reflexivity.
Qed.

Lemma slt_asym : forall a b, slt a b -> ~ slt b a.
Proof. intros a b H1 H2. exact (slt_irrefl a (slt_trans _ _ _ H1 H2)). Qed.

Lemma slt_total : forall a b, slt a b \/ a = b \/ slt b a.
Proof.
  intros a b. unfold slt. rewrite (String.compare_antisym b a).
  destruct (String.compare a b) eqn:E; auto. apply String.compare_eq_iff in E. auto.
Qed.

Lemma str_lt_false : forall a b, str_lt a b = false -> a = b \/ slt b a.
Proof.
  intros a b H. destruct (slt_total a b) as [L|[E|L]]; auto. apply str_lt_iff in L. congruence.
Qed.

Lemma str_lt_spec : forall a b, {slt a b /\ str_lt a b = true} + {~ slt a b /\ str_lt a b = false}.
Proof.
  intros a b. destruct (str_lt a b) eqn:E; [left|right]; split; auto.
  - apply str_lt_iff; auto.
  - intro H. apply str_lt_iff in H. congruence.
Qed.

Lemma sorted_inv : forall x l, sorted_set (x :: l) -> sorted_set l /\ (forall y, In y l -> slt x y).
Proof. intros x l H. inversion H; subst. split; auto. rewrite Forall_forall in *. auto. Qed.

Lemma sorted_cons : forall x l, sorted_set l -> (forall y, In y l -> slt x y) -> sorted_set (x :: l).
Proof. intros. constructor; auto. apply Forall_forall. auto. Qed.

Lemma sorted_nodup : forall l, sorted_set l -> NoDup l.
Proof.
  induction l; intros H; constructor.
  - intro I. apply sorted_inv in H as [_ H]. exact (slt_irrefl _ (H _ I)).
  - apply IHl. apply sorted_inv in H as [H _]. exact H.
Qed.

Lemma sorted_ext : forall a b, sorted_set a -> sorted_set b -> (forall x, In x a <-> In x b) -> a = b.
Proof.
  induction a as [|x a]; intros b Ha Hb H.
  - destruct b as [|y b]; auto. exfalso. apply (H y). left; auto.
  - destruct b as [|y b]. { exfalso. apply (H x). left; auto. }
    apply sorted_inv in Ha as [Ha Hx]. pose proof Hb as Hb'. apply sorted_inv in Hb' as [Hb' Hy].
    assert (x = y).
    { destruct (proj1 (H x) (or_introl eq_refl)) as [E|I]; auto.
      destruct (proj2 (H y) (or_introl eq_refl)) as [E|J]; auto.
      exfalso. exact (slt_asym _ _ (Hx _ J) (Hy _ I)). }
    subst y. f_equal. apply IHa; auto.
    intros z. split; intro I.
    + destruct (proj1 (H z) (or_intror I)) as [E|J]; auto. subst z. exfalso. exact (slt_irrefl _ (Hx _ I)).
    + destruct (proj2 (H z) (or_intror I)) as [E|J]; auto. subst z. exfalso. exact (slt_irrefl _ (Hy _ I)).
Qed.

Lemma union_in : forall a b x, In x (set_union a b) <-> In x a \/ In x b.
Proof.
  induction a as [|p a]; intros b x.
  - destruct b; cbn; intuition.
  - induction b as [|q b IHb].
    + cbn. intuition.
    + change (set_union (p :: a) (q :: b)) with
        (if str_lt q p then q :: set_union (p :: a) b
         else if str_lt p q then p :: set_union a (q :: b) else p :: set_union a b).
      destruct (str_lt q p) eqn:E1.
      * cbn [In] in *. rewrite IHb. tauto.
      * destruct (str_lt p q) eqn:E2.
        -- cbn [In] in *. rewrite IHa. cbn [In]. tauto.
        -- assert (p = q).
           { apply str_lt_false in E1. apply str_lt_false in E2.
             destruct E1 as [E1|E1], E2 as [E2|E2]; auto; try congruence.
             exfalso. exact (slt_asym _ _ E1 E2). }
           subst. cbn [In] in *. rewrite IHa. tauto.
Qed.

Lemma union_sorted : forall a b, sorted_set a -> sorted_set b -> sorted_set (set_union a b).
Proof.
  induction a as [|p a]; intros b Ha Hb.
  - destruct b; exact Hb.
  - induction b as [|q b IHb]; [exact Ha|].
    change (set_union (p :: a) (q :: b)) with
      (if str_lt q p then q :: set_union (p :: a) b
       else if str_lt p q then p :: set_union a (q :: b) else p :: set_union a b).
    pose proof (sorted_inv _ _ Ha) as [Ha' Hp]. pose proof (sorted_inv _ _ Hb) as [Hb' Hq].
    destruct (str_lt q p) eqn:E1.
    + apply str_lt_iff in E1. apply sorted_cons; auto.
      intros y Hy. apply union_in in Hy as [[->|I]|I]; auto. eapply slt_trans; eauto.
    + destruct (str_lt p q) eqn:E2.
      * apply str_lt_iff in E2. apply sorted_cons; auto.
        intros y Hy. apply union_in in Hy as [I|[->|I]]; auto. eapply slt_trans; eauto.
      * assert (p = q).
        { apply str_lt_false in E1. apply str_lt_false in E2.
          destruct E1 as [E1|E1], E2 as [E2|E2]; auto; try congruence.
          exfalso. exact (slt_asym _ _ E1 E2). }
        subst. apply sorted_cons; auto.
        intros y Hy. apply union_in in Hy as [I|I]; auto.
Qed.

Lemma take_before_ok : forall u c, sorted_set u -> In c u ->
  exists pre rest, take_before u c = Ok (pre, c :: rest) /\ u = pre ++ c :: rest /\
    (forall x, In x pre -> slt x c).
Proof.
  induction u as [|x u]; intros c Hs Hc; [destruct Hc|].
  apply sorted_inv in Hs as [Hs Hx]. cbn.
  destruct (str_lt_spec x c) as [[L ->]|[L ->]].
  - destruct Hc as [->|Hc]; [exfalso; exact (slt_irrefl _ L)|].
    destruct (IHu c Hs Hc) as (pre & rest & E & -> & P). rewrite E. cbn.
    exists (x :: pre), rest. repeat split; auto. intros y [->|I]; auto.
  - destruct Hc as [->|Hc]; [|exfalso; apply L; auto].
    exists [], u. repeat split; auto. intros y [].
Qed.

Lemma sorted_app_inv : forall a b, sorted_set (a ++ b) -> sorted_set a /\ sorted_set b /\
  (forall x y, In x a -> In y b -> slt x y).
Proof.
  induction a; cbn; intros b H.
  - repeat split; auto. constructor. intros x y [].
  - apply sorted_inv in H as [H1 H2]. apply IHa in H1 as (A & B & C).
    split; [apply sorted_cons; auto; intros; apply H2; apply in_or_app; auto|].
    split; auto. intros x y [->|I] J; auto. apply H2. apply in_or_app; auto.
Qed.

Lemma ins_at_lt : forall {A} (m : list (nat * list A)) i j, Forall (fun p => i <= fst p) m -> j < i -> ins_at m j = [].
Proof.
  intros A m i j H L. unfold ins_at. induction m as [|p m IH]; cbn; auto.
  inversion H; subst. destruct (Nat.eqb_spec (fst p) j); [lia|]. auto.
Qed.

Lemma insert_all_ext : forall {A} (f g : nat -> list A) l i, (forall j, i <= j -> f j = g j) ->
  insert_all f i l = insert_all g i l.
Proof.
  induction l; intros i H; cbn.
  - apply H; lia.
  - rewrite H by lia. f_equal. f_equal. apply IHl. intros. apply H. lia.
Qed.

Lemma compute_map_ok : forall s u i, sorted_set u -> sorted_set s -> (forall x, In x s -> In x u) ->
  exists m, compute_map i u s = Ok m /\
    insert_all (ins_at m) i s = u /\
    StronglySorted lt (map fst m) /\
    Forall (fun p => i <= fst p <= i + List.length s /\ snd p <> []) m /\
    (forall x, In x (List.concat (map snd m)) <-> In x u /\ ~ In x s).
Proof.
  induction s as [|c s]; intros u i Hu Hs Hin.
  - cbn. destruct u as [|x u].
    + exists []. repeat split; auto; try constructor; cbn in *; tauto.
    + exists [(i, x :: u)]. cbn [insert_all]. unfold ins_at. cbn. rewrite Nat.eqb_refl. cbn.
      repeat split; auto; try lia.
      * constructor; constructor.
      * repeat constructor; cbn; try lia. congruence.
      * rewrite app_nil_r in H. exact H.
      * rewrite app_nil_r. tauto.
  - destruct (take_before_ok u c Hu (Hin c (or_introl eq_refl))) as (pre & rest & E & Eu & P).
    cbn [compute_map]. rewrite E. cbn [bind].
    pose proof (sorted_inv _ _ Hs) as [Hs' Hc].
    pose proof Hu as Hu2. rewrite Eu in Hu2. apply sorted_app_inv in Hu2 as (Hpre & Hrest & Hlt).
    pose proof (sorted_inv _ _ Hrest) as [Hr2 Hcr].
    destruct (IHs rest (S i) Hr2 Hs') as (m & Em & Ins & St & F & Cn).
    { intros x Hx. assert (Hxu : In x u) by (apply Hin; right; auto). rewrite Eu in Hxu.
      apply in_app_or in Hxu as [I|[->|I]]; auto.
      - exfalso. exact (slt_asym _ _ (P _ I) (Hc _ Hx)).
      - exfalso. exact (slt_irrefl _ (Hc _ Hx)). }
    rewrite Em. cbn [bind].
    assert (F1 : Forall (fun p : nat * list string => S i <= fst p) m).
    { eapply Forall_impl; [|exact F]. cbn. intros a [Ha _]. lia. }
    assert (Cnt : forall x, In x pre \/ In x (List.concat (map snd m)) <-> In x u /\ ~ In x (c :: s)).
    { intros x. rewrite Cn. rewrite Eu. rewrite in_app_iff. cbn [In]. split.
      - intros [I|[I NI]].
        + split; auto. intros [->|J]; [exact (slt_irrefl _ (P _ I))|exact (slt_asym _ _ (P _ I) (Hc _ J))].
        + split; auto. intros [->|J]; [exact (slt_irrefl _ (Hcr _ I))|auto].
      - intros [[I|[->|I]] NI]; auto; tauto. }
    destruct pre as [|p0 pre'].
    + exists m. split; [reflexivity|]. split.
      { cbn [insert_all]. rewrite (ins_at_lt m (S i) i F1) by lia. cbn [app]. rewrite Ins. symmetry. exact Eu. }
      split; [exact St|]. split.
      { eapply Forall_impl; [|exact F]. cbn. intros a [Ha Hb]. split; auto; lia. }
      intros x. rewrite <- Cnt. cbn. tauto.
    + exists ((i, p0 :: pre') :: m). split; [reflexivity|]. split.
      { cbn [insert_all]. unfold ins_at at 1. cbn [find fst]. rewrite Nat.eqb_refl. cbn [snd].
        rewrite (insert_all_ext _ (ins_at m)).
        - rewrite Ins. symmetry. exact Eu.
        - intros j Hj. unfold ins_at. cbn [find fst]. destruct (Nat.eqb_spec i j); [lia|]. reflexivity. }
      split.
      { cbn [map fst]. constructor; [exact St|]. rewrite Forall_map. eapply Forall_impl; [|exact F1]. intros a Ha; exact Ha. }
      split.
      { constructor; [cbn; split; [lia|congruence]|].
        eapply Forall_impl; [|exact F]. cbn. intros a [Ha Hb]. split; auto; lia. }
      intros x. rewrite <- Cnt. cbn [map snd List.concat]. rewrite in_app_iff. tauto.
Qed.

Lemma lower_bound_spec : forall l n k r, lower_bound l n = (k, r) ->
  l = firstn k l ++ r /\ r = skipn k l /\ k <= List.length l /\
  (forall x, In x (firstn k l) -> slt x n) /\
  match r with [] => True | x :: _ => ~ slt x n end.
Proof.
  induction l as [|x l]; cbn; intros n k r H.
  - inversion H; subst. cbn. repeat split; auto; tauto.
  - destruct (str_lt_spec x n) as [[L E]|[L E]]; rewrite E in H.
    + destruct (lower_bound l n) as [k' r'] eqn:E'. inversion H; subst.
      destruct (IHl n k' r E') as (A & B & C & D & F). cbn. repeat split; auto; try lia.
      * f_equal. exact A.
      * intros y [->|I]; auto.
    + inversion H; subst. cbn. repeat split; auto; try lia; tauto.
Qed.

Lemma skipn_skipn : forall {A} a b (l : list A), skipn a (skipn b l) = skipn (a + b) l.
Proof.
  intros A a b. revert a. induction b; intros a l.
  - rewrite Nat.add_0_r. reflexivity.
  - rewrite Nat.add_succ_r. destruct l; [rewrite !skipn_nil; reflexivity|]. cbn. apply IHb.
Qed.

(* index of a symbol in a set *)
Lemma sm_loop_spec : forall {T} (m : symbol_map T) off it s_ref,
  sorted_set (map fst m) -> sorted_set s_ref -> it = skipn off s_ref ->
  (forall x n, In x (firstn off s_ref) -> In n (map fst m) -> slt x n) ->
  StronglySorted lt (map fst (sm_intersect_loop m off it)) /\
  Forall (fun p => off <= fst p) (sm_intersect_loop m off it) /\
  (forall i v, In (i, v) (sm_intersect_loop m off it) <-> exists n, nth_error s_ref i = Some n /\ In (n, v) m).
Proof.
  intros T m. induction m as [|[n v] m IH]; intros off it s_ref Hm Hs Eit Hlt.
  - cbn. repeat split; try constructor; [tauto|]. intros (n & _ & []).
  - cbn [sm_intersect_loop map fst] in *. pose proof (sorted_inv _ _ Hm) as [Hm' Hn].
    destruct (lower_bound it n) as [k r] eqn:E.
    destruct (lower_bound_spec _ _ _ _ E) as (A & B & C & D & F).
    assert (Er : r = skipn (off + k) s_ref).
    { rewrite B, Eit, skipn_skipn. f_equal. lia. }
    assert (Hf : forall x, In x (firstn (off + k) s_ref) -> slt x n).
    { intros x Hx. rewrite <- (firstn_skipn off s_ref) in Hx. rewrite firstn_app in Hx.
      apply in_app_or in Hx as [Hx|Hx].
      - apply Hlt; cbn; auto. rewrite firstn_firstn in Hx. 
        replace (Nat.min (off + k) off) with off in Hx by lia. auto.
      - apply D. rewrite Eit. rewrite firstn_length in Hx.
        destruct (Nat.le_gt_cases off (List.length s_ref)).
        + replace (off + k - Nat.min off (List.length s_ref)) with k in Hx by lia. auto.
        + rewrite skipn_all2 in Hx by lia. destruct (off + k - Nat.min off (List.length s_ref)); destruct Hx. }
    (* facts about positions *)
    assert (Hpos : forall i x, nth_error s_ref i = Some x -> ~ slt x n -> off + k <= i).
    { intros i x Hi Hnx. destruct (Nat.le_gt_cases (off + k) i); auto. exfalso. apply Hnx, Hf.
      rewrite <- (firstn_skipn (off + k) s_ref) in Hi.
      assert (Hlen : i < List.length s_ref).
      { apply nth_error_Some. rewrite (firstn_skipn (off + k) s_ref) in Hi. congruence. }
      rewrite nth_error_app1 in Hi.
      - eapply nth_error_In; eauto.
      - rewrite firstn_length. lia. }
    destruct r as [|x r'].
    { (* end reached *)
      split; [constructor|]. split; [constructor|].
      intros i w. split; [intros []|]. intros (y & Hy & Hin).
      assert (Hny : ~ slt y n).
      { destruct Hin as [Eq|Hin].
        - inversion Eq; subst. apply slt_irrefl.
        - intro L. apply (slt_asym _ _ L). apply Hn. apply in_map_iff. exists (y, w). auto. }
      pose proof (Hpos _ _ Hy Hny).
      assert (List.length s_ref <= off + k).
      { assert (List.length (skipn (off + k) s_ref) = 0) by (rewrite <- Er; reflexivity).
        rewrite skipn_length in H0. lia. }
      assert (i < List.length s_ref) by (apply nth_error_Some; congruence). lia. }
    assert (Hx : nth_error s_ref (off + k) = Some x).
    { rewrite <- (firstn_skipn (off + k) s_ref). rewrite nth_error_app2; rewrite firstn_length.
      - assert (off + k <= List.length s_ref).
        { destruct (Nat.le_gt_cases (off + k) (List.length s_ref)); auto. rewrite skipn_all2 in Er by lia. discriminate. }
        replace (off + k - Nat.min (off + k) (List.length s_ref)) with 0 by lia. rewrite <- Er. reflexivity.
      - lia. }
    assert (Hr' : r' = skipn (S (off + k)) s_ref).
    { change (x :: r') with ([x] ++ r') in Er. 
      assert (skipn 1 (x :: r') = skipn 1 (skipn (off + k) s_ref)) by (rewrite <- Er; reflexivity).
      rewrite skipn_skipn in H. cbn in H. exact H. }
    destruct (String.eqb_spec x n) as [->|Hne].
    + assert (P : forall y z, In y (firstn (S (off + k)) s_ref) -> In z (map fst m) -> slt y z).
      { intros y z Hy Hz.
        assert (Y : In y (firstn (off + k) s_ref) \/ y = n).
        { apply In_nth_error in Hy as (j & Hj).
          assert (Hjl : j < List.length (firstn (S (off + k)) s_ref)) by (apply nth_error_Some; congruence).
          rewrite firstn_length in Hjl.
          assert (Hj2 : nth_error s_ref j = Some y).
          { rewrite <- (firstn_skipn (S (off + k)) s_ref). rewrite nth_error_app1; auto. rewrite firstn_length. lia. }
          destruct (Nat.eq_dec j (off + k)) as [->|Hjn]; [right; congruence|left].
          apply (nth_error_In _ j).
          rewrite <- (firstn_skipn (off + k) s_ref) in Hj2. rewrite nth_error_app1 in Hj2; auto.
          rewrite firstn_length. lia. }
        destruct Y as [Y| ->].
        - eapply slt_trans; [apply Hf; exact Y|apply Hn; exact Hz].
        - apply Hn; auto. }
      destruct (IH (S (off + k)) r' s_ref Hm' Hs Hr' P) as (I1 & I2 & I3).
      cbn [map fst]. split.
      { constructor; auto. rewrite Forall_map. eapply Forall_impl; [|exact I2]. cbn. intros; lia. }
      split.
      { constructor; [cbn; lia|]. eapply Forall_impl; [|exact I2]. cbn. intros; lia. }
      intros i w. cbn [In]. rewrite I3. split.
      * intros [Eq|(y & Hy & Hin)]; [inversion Eq; subst; eauto|eauto].
      * intros (y & Hy & [Eq|Hin]); [|eauto]. inversion Eq; subst y w. left. f_equal.
        assert (ND : NoDup s_ref) by (apply sorted_nodup; auto).
        rewrite NoDup_nth_error in ND. apply ND.
        -- apply nth_error_Some. congruence.
        -- congruence.
    + assert (P : forall y z, In y (firstn (off + k) s_ref) -> In z (map fst m) -> slt y z).
      { intros y z Hy Hz. eapply slt_trans; [apply Hf; exact Hy|apply Hn; exact Hz]. }
      destruct (IH (off + k) (x :: r') s_ref Hm' Hs Er P) as (I1 & I2 & I3).
      split; [exact I1|]. split; [eapply Forall_impl; [|exact I2]; cbn; intros; lia|].
      intros i w. rewrite I3. split.
      * intros (y & Hy & Hin). exists y. split; auto. right; auto.
      * intros (y & Hy & [Eq|Hin]); [|eauto]. inversion Eq; subst y w. exfalso.
        (* n not in s_ref: at off+k is x > n *)
        assert (L : slt n x).
        { destruct (slt_total x n) as [L|[L|L]]; auto; congruence. }
        pose proof (Hpos _ _ Hy (slt_irrefl n)).
        assert (In n (x :: r')).
        { rewrite Er. apply (nth_error_In _ (i - (off + k))).
          rewrite <- (firstn_skipn (off + k) s_ref) in Hy. rewrite nth_error_app2 in Hy.
          - rewrite firstn_length in Hy.
            assert (off + k < List.length s_ref) by (apply nth_error_Some; congruence).
            replace (Nat.min (off + k) (List.length s_ref)) with (off + k) in Hy by lia. exact Hy.
          - rewrite firstn_length. lia. }
        assert (Sx : sorted_set (x :: r')).
        { rewrite Er. rewrite <- (firstn_skipn (off + k) s_ref) in Hs. apply sorted_app_inv in Hs as (_ & Hs & _). exact Hs. }
        apply sorted_inv in Sx as [_ Sx]. destruct H0 as [->|I].
        -- exact (slt_irrefl _ L).
        -- exact (slt_asym _ _ L (Sx _ I)).
Qed.

Lemma ss_loop_sm : forall s off it,
  ss_intersect_loop s off it = map fst (sm_intersect_loop (map (fun n => (n, tt)) s) off it).
Proof.
  induction s; intros; cbn; auto.
  destruct (lower_bound it a) as [k [|x r]]; auto.
  destruct (String.eqb x a); cbn; [f_equal|]; apply IHs.
Qed.
