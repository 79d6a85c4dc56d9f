(** Proofs about series.hpp, part 1: tables, term insertion, the class invariants. *)
From Coq Require Import ZArith List Bool String Arith Sorted Permutation Lia Ring Ring_theory.
From Verif Require Import Base IntModel SymModel SymSpec PMonSpec KeyOps SeriesModel SeriesModel2 SeriesSpec.
Import ListNotations.
Open Scope Z_scope.
Notation len := List.length.

Lemma concat_split {A} (ts : list (list A)) i t : nth_error ts i = Some t ->
  exists a b, ts = a ++ t :: b /\ len a = i.
Proof. apply nth_error_split. Qed.

Lemma put_split {A} (a b : list (list A)) t t' : firstn (len a) (a ++ t :: b) ++ t' :: skipn (S (len a)) (a ++ t :: b) = a ++ t' :: b.
Proof.
  rewrite firstn_app, Nat.sub_diag, firstn_all. cbn [firstn]. rewrite app_nil_r. f_equal. f_equal.
  rewrite skipn_app. rewrite skipn_all2 by lia. replace (S (len a) - len a)%nat with 1%nat by lia. reflexivity.
Qed.

Lemma rd_some {A} (l : list A) i x : rd l i = Ok x <-> nth_error l i = Some x.
Proof. unfold rd. destruct (nth_error l i); split; congruence. Qed.

Lemma pow2_pos n : (0 < 2 ^ n)%nat.
Proof. induction n; cbn; lia. Qed.

Lemma pow2_Z n : Z.of_nat (2 ^ n) = 2 ^ Z.of_nat n.
Proof. rewrite Nat2Z.inj_pow. reflexivity. Qed.

Section S.
Context {K C Tag : Type} (KO : key_ops K) (KS : key_sem K) (CO : cf_ops C) (PO : tbl_policy (K * C)) (TO : tag_ops Tag).
Hypothesis KL : key_laws KO KS.
Hypothesis CL : cf_laws CO.

Notation "0c" := (c_zero CO).
Infix "+c" := (c_add CO) (at level 50, left associativity).
Infix "-c" := (c_sub CO) (at level 50, left associativity).
Infix "*c" := (c_mul CO) (at level 40, left associativity).
Notation "-c x" := (c_neg CO x) (at level 35).
Add Ring Cring : (cl_ring CO CL).

Definition sg (sign : bool) (c : C) : C := if sign then c else -c c.
Definition ifP (b : bool) (c : C) : C := if b then c else 0c.

Lemma keqb_refl k : k_eqb KO k k = true.
Proof. apply (kl_eqb _ _ KL). reflexivity. Qed.
Lemma keqb_neq a b : k_eqb KO a b = false <-> a <> b.
Proof. rewrite <- not_true_iff_false. rewrite (kl_eqb _ _ KL). tauto. Qed.

Lemma k_dec (a b : K) : {a = b} + {a <> b}.
Proof. destruct (k_eqb KO a b) eqn:E; [left; apply (kl_eqb _ _ KL); exact E|right; apply keqb_neq; exact E]. Qed.

(** ** psum *)
Lemma csum_app a b : csum CO (a ++ b) = csum CO a +c csum CO b.
Proof. unfold csum. induction a as [|x a IH]; cbn [app fold_right]; [ring|]. rewrite IH. ring. Qed.

Lemma csum_perm a b : Permutation a b -> csum CO a = csum CO b.
Proof. induction 1; unfold csum in *; cbn [fold_right]; try congruence; try ring. Qed.

Lemma psum_nil (P : K -> bool) : psum CO P [] = 0c.
Proof. reflexivity. Qed.
Lemma psum_cons (P : K -> bool) e l : psum CO P (e :: l) = ifP (P (fst e)) (snd e) +c psum CO P l.
Proof. unfold psum. cbn [filter]. destruct (P (fst e)); cbn [map csum fold_right ifP]; [reflexivity|]. unfold csum. cbn. ring. Qed.
Lemma psum_app (P : K -> bool) a b : psum CO P (a ++ b) = psum CO P a +c psum CO P b.
Proof. unfold psum. rewrite filter_app, map_app. apply csum_app. Qed.
Lemma filter_perm {A} (f : A -> bool) l l' : Permutation l l' -> Permutation (filter f l) (filter f l').
Proof.
  induction 1; cbn [filter]; auto.
  - destruct (f x); auto.
  - destruct (f x), (f y); auto; try apply perm_swap; apply Permutation_refl.
  - eapply perm_trans; eauto.
Qed.
Lemma psum_perm (P : K -> bool) l l' : Permutation l l' -> psum CO P l = psum CO P l'.
Proof. intros H. apply csum_perm. apply Permutation_map. apply filter_perm. exact H. Qed.

Lemma psum_ext (P Q : K -> bool) l : (forall k c, In (k, c) l -> P k = Q k) -> psum CO P l = psum CO Q l.
Proof.
  induction l as [|[k c] l IH]; intros H; [reflexivity|]. rewrite !psum_cons. cbn [fst snd].
  rewrite (H k c) by (left; reflexivity). rewrite IH; auto. intros k' c' I. apply (H k' c'). right. exact I.
Qed.

Lemma psum_false (P : K -> bool) l : (forall k c, In (k, c) l -> P k = false) -> psum CO P l = 0c.
Proof.
  intros H. rewrite (psum_ext P (fun _ => false)) by exact H. clear H. induction l as [|e l IH]; [reflexivity|].
  rewrite psum_cons, IH. cbn. ring.
Qed.

(** Conversions of coefficients/keys. *)
Lemma psum_map {K' C'} (P : K -> bool) (f : K' -> K) (g : C' -> C) (CO' : cf_ops C') l :
  g (c_zero CO') = 0c -> (forall a b, g (c_add CO' a b) = g a +c g b) ->
  psum CO P (map (fun e => (f (fst e), g (snd e))) l) = g (psum CO' (fun k => P (f k)) l).
Proof.
  intros G0 G1. induction l as [|e l IH]; [cbn; unfold psum; cbn; auto|].
  cbn [map]. rewrite psum_cons. cbn [fst snd]. rewrite IH. unfold psum at 2. cbn [filter]. destruct (P (f (fst e))); cbn [ifP map csum fold_right].
  - unfold psum, csum. rewrite G1. reflexivity.
  - unfold psum, csum. ring.
Qed.

(** ** Tables *)
Definition keys (t : table K C) : list K := map fst t.
Definition nz (t : table K C) : Prop := forall k c, In (k, c) t -> c <> 0c.

Lemma find_none (t : table K C) k : tbl_find KO t k = None <-> ~ In k (keys t).
Proof.
  unfold tbl_find, keys. split.
  - intros H I. apply in_map_iff in I as ([k' c] & E & I). cbn in E. subst k'.
    pose proof (find_none _ _ H _ I) as X. cbn in X. rewrite keqb_refl in X. discriminate.
  - intros H. destruct (find _ t) as [[k' c]|] eqn:E; auto. apply find_some in E as [I E]. cbn in E.
    apply (kl_eqb _ _ KL) in E. subst k'. elim H. apply in_map_iff. exists (k, c). auto.
Qed.

Lemma find_some (t : table K C) k e : NoDup (keys t) -> (tbl_find KO t k = Some e <-> In e t /\ fst e = k).
Proof.
  intros N. split.
  - intros H. apply find_some in H as [I E]. apply (kl_eqb _ _ KL) in E. auto.
  - intros [I E]. destruct (tbl_find KO t k) as [e'|] eqn:F.
    + apply List.find_some in F as [I' E']. apply (kl_eqb _ _ KL) in E'. f_equal.
      unfold keys in N. revert I I' N. clear -E E'. induction t as [|x t IH]; intros I I' N; [contradiction|]. cbn [map] in N. inversion N; subst.
      destruct I as [->|I], I' as [->|I']; auto.
      * elim H1. apply in_map_iff. exists e'. split; [congruence|auto].
      * elim H1. apply in_map_iff. exists e. split; [congruence|auto].
    + apply find_none in F. elim F. apply in_map_iff. exists e. auto.
Qed.

Lemma keys_update (t : table K C) k f : keys (tbl_update KO t k f) = keys t.
Proof. unfold keys, tbl_update. rewrite map_map. apply map_ext. intros e. destruct (k_eqb KO (fst e) k); reflexivity. Qed.

Lemma update_len (t : table K C) k f : len (tbl_update KO t k f) = len t.
Proof. apply map_length. Qed.

Lemma update_notin (t : table K C) k f : ~ In k (keys t) -> tbl_update KO t k f = t.
Proof.
  intros H. unfold tbl_update. rewrite <- (map_id t) at 2. apply map_ext_in. intros e I.
  assert (k_eqb KO (fst e) k = false) as ->; auto. apply keqb_neq. intros <-. apply H. apply in_map. exact I.
Qed.

Lemma erase_notin (t : table K C) k : ~ In k (keys t) -> tbl_erase KO t k = t.
Proof.
  intros H. unfold tbl_erase. induction t as [|e t IH]; [reflexivity|]. cbn [filter].
  assert (k_eqb KO (fst e) k = false) as ->. { apply keqb_neq. intros <-. apply H. left. reflexivity. }
  cbn [negb]. rewrite IH; auto. intros I. apply H. right. exact I.
Qed.

Lemma update_psum (t : table K C) k f c0 (P : K -> bool) : NoDup (keys t) -> In (k, c0) t ->
  psum CO P (tbl_update KO t k f) = psum CO P t +c ifP (P k) (f c0 -c c0).
Proof.
  induction t as [|[x c] t IH]; intros N I; [contradiction|]. unfold keys in N. cbn [map fst] in N. inversion N; subst.
  cbn [tbl_update map]. fold (tbl_update KO t k f). cbn [fst snd]. destruct (k_dec x k) as [->|Nx].
  - rewrite keqb_refl. rewrite update_notin by exact H1. rewrite !psum_cons. cbn [fst snd].
    assert (c = c0) as ->. { destruct I as [I|I]; [congruence|]. elim H1. apply in_map_iff. exists (k, c0). auto. }
    destruct (P k); cbn [ifP]; ring.
  - assert (k_eqb KO x k = false) as -> by (apply keqb_neq; exact Nx).
    destruct I as [I|I]; [congruence|]. rewrite !psum_cons, IH; auto. ring.
Qed.

Lemma erase_psum (t : table K C) k c0 (P : K -> bool) : NoDup (keys t) -> In (k, c0) t ->
  psum CO P (tbl_erase KO t k) = psum CO P t -c ifP (P k) c0.
Proof.
  induction t as [|[x c] t IH]; intros N I; [contradiction|]. unfold keys in N. cbn [map fst] in N. inversion N; subst.
  cbn [tbl_erase filter]. fold (tbl_erase KO t k). cbn [fst snd]. destruct (k_dec x k) as [->|Nx].
  - rewrite keqb_refl. cbn [negb]. rewrite erase_notin by exact H1. rewrite !psum_cons. cbn [fst snd].
    assert (c = c0) as ->. { destruct I as [I|I]; [congruence|]. elim H1. apply in_map_iff. exists (k, c0). auto. }
    ring.
  - assert (k_eqb KO x k = false) as -> by (apply keqb_neq; exact Nx).
    destruct I as [I|I]; [congruence|]. cbn [negb]. rewrite !psum_cons, IH; auto. ring.
Qed.

Lemma in_erase (t : table K C) k e : In e (tbl_erase KO t k) <-> In e t /\ fst e <> k.
Proof. unfold tbl_erase. rewrite filter_In, negb_true_iff, keqb_neq. tauto. Qed.

Lemma erase_nodup (t : table K C) k : NoDup (keys t) -> NoDup (keys (tbl_erase KO t k)).
Proof.
  intros N. induction t as [|e t IH]; [constructor|]. unfold keys in N. cbn [map] in N. inversion N; subst. cbn [tbl_erase filter].
  fold (tbl_erase KO t k). destruct (negb (k_eqb KO (fst e) k)); [|auto]. unfold keys. cbn [map]. constructor; [|apply IH; exact H2].
  intros I. apply in_map_iff in I as (e' & E & I). apply in_erase in I as [I _]. apply H1. rewrite <- E. apply in_map. exact I.
Qed.

Lemma erase_len (t : table K C) k : (len (tbl_erase KO t k) <= len t)%nat.
Proof. unfold tbl_erase. induction t as [|e t IH]; cbn [filter List.length]; [lia|]. destruct (negb _); cbn [List.length]; lia. Qed.

Lemma in_update (t : table K C) k f x c : In (x, c) (tbl_update KO t k f) <->
  (x <> k /\ In (x, c) t) \/ (x = k /\ exists c0, In (k, c0) t /\ c = f c0).
Proof.
  unfold tbl_update. rewrite in_map_iff. split.
  - intros ([y d] & E & I). cbn [fst snd] in E. destruct (k_dec y k) as [->|N].
    + rewrite keqb_refl in E. inversion E; subst. right. split; auto. exists d. auto.
    + assert (k_eqb KO y k = false) as X by (apply keqb_neq; exact N). rewrite X in E. inversion E; subst. left. auto.
  - intros [[N I]|[-> (c0 & I & ->)]].
    + exists (x, c). cbn [fst snd]. assert (k_eqb KO x k = false) as -> by (apply keqb_neq; exact N). auto.
    + exists (k, c0). cbn [fst snd]. rewrite keqb_refl. auto.
Qed.

(** What a successful insertion does to a table. *)
Definition inserted (sign cz : bool) (t t' : table K C) (k : K) (c : C) : Prop :=
  NoDup (keys t') /\
  (forall x d, x <> k -> (In (x, d) t' <-> In (x, d) t)) /\
  (forall P, psum CO P t' = psum CO P t +c ifP (P k) (sg sign c)) /\
  ((cz = true \/ (~ In k (keys t) /\ c <> 0c)) -> nz t -> nz t') /\
  (len t' <= S (len t))%nat.

Lemma neg_nz c : c <> 0c -> -c c <> 0c.
Proof. intros H E. apply H. transitivity (-c (-c c)); [ring|]. rewrite E. ring. Qed.

Lemma add_table_ok sign cz ccompat csize au ss mts t k c : NoDup (keys t) ->
  (au = true -> ~ In k (keys t)) ->
  (ccompat = true -> k_compatible KO k ss = Ok true) ->
  (csize = true -> Z.of_nat (len t) <> mts) ->
  exists t', series_add_term_table KO CO PO sign cz ccompat csize au ss mts t k c = Ok t' /\ inserted sign cz t t' k c.
Proof.
  intros N A CP SZ. unfold series_add_term_table.
  assert (csize && (Z.of_nat (len t) =? mts) = false) as ->.
  { destruct csize; [|reflexivity]. cbn [andb]. apply Z.eqb_neq. auto. }
  assert ((if ccompat then k_compatible KO k ss else Ok true) = Ok true) as -> by (destruct ccompat; auto).
  cbn [bind negb]. unfold tbl_try_emplace. destruct (tbl_find KO t k) as [[k' c0]|] eqn:F.
  - (* the key exists *)
    apply find_some in F as [I E]; [|exact N]. cbn [fst] in E. subst k'.
    assert (IN : In k (keys t)) by (apply in_map_iff; exists (k, c0); auto).
    assert (au = false) as -> by (destruct au; auto; elim (A eq_refl); exact IN).
    cbn [orb].
    set (f := fun x => if sign then x +c c else x -c c). set (t2 := tbl_update KO t k f).
    assert (N2 : NoDup (keys t2)) by (unfold t2; rewrite keys_update; exact N).
    assert (I2 : In (k, f c0) t2). { apply in_update. right. split; auto. exists c0. auto. }
    assert (F2 : tbl_find KO t2 k = Some (k, f c0)) by (apply find_some; auto).
    rewrite F2. rewrite (kl_zero _ _ KL). cbn [orb snd].
    assert (P2 : forall P, psum CO P t2 = psum CO P t +c ifP (P k) (sg sign c)).
    { intros P. unfold t2. rewrite (update_psum t k f c0 P N I). f_equal. unfold f. destruct (P k), sign; cbn [ifP sg]; ring. }
    destruct (cz && c_is_zero CO (f c0)) eqn:Z.
    + apply andb_true_iff in Z as [-> Z]. apply (cl_zero _ CL) in Z.
      eexists. split; [reflexivity|]. split; [apply erase_nodup; exact N2|]. split.
      { intros x d Nx. rewrite in_erase. unfold t2. rewrite in_update. cbn [fst]. tauto. }
      split. { intros P. rewrite (erase_psum t2 k (f c0) P N2 I2), P2, Z. destruct (P k); cbn [ifP]; ring. }
      split. { intros _ Hn x d Ix. apply in_erase in Ix as [Ix Nx]. unfold t2 in Ix. apply in_update in Ix as [[_ Ix]|[Ex _]]; [eauto|]. cbn in Nx. contradiction. }
      pose proof (erase_len t2 k). unfold t2 in H at 2. rewrite update_len in H. lia.
    + eexists. split; [reflexivity|]. split; [exact N2|]. split.
      { intros x d Nx. unfold t2. rewrite in_update. tauto. }
      split; [exact P2|]. split; [|unfold t2; rewrite update_len; lia].
      intros [->|[X _]] Hn; [|contradiction]. cbn [andb] in Z. intros x d Ix. unfold t2 in Ix. apply in_update in Ix as [[_ Ix]|[-> (d0 & Id & ->)]]; [eauto|].
      assert (d0 = c0) as ->.
      { assert (E : tbl_find KO t k = Some (k, d0)) by (apply find_some; auto). assert (E' : tbl_find KO t k = Some (k, c0)) by (apply find_some; auto). congruence. }
      intros E. apply (cl_zero _ CL) in E. congruence.
  - (* new key *)
    apply find_none in F. cbn beta iota zeta. rewrite orb_true_r. cbn beta iota zeta. set (t1 := reorder PO ((k, c) :: t)).
    assert (PM : Permutation t1 ((k, c) :: t)) by apply reorder_perm.
    assert (N1 : NoDup (keys t1)).
    { unfold keys. eapply Permutation_NoDup; [apply Permutation_sym, Permutation_map, PM|]. cbn [map fst]. constructor; auto. }
    assert (L1 : len t1 = S (len t)) by (rewrite (Permutation_length PM); reflexivity).
    assert (I1 : In (k, c) t1) by (eapply Permutation_in; [apply Permutation_sym, PM|left; reflexivity]).
    match goal with |- context [tbl_find KO ?x k] => set (t2 := x) end.
    assert (N2 : NoDup (keys t2)) by (unfold t2; destruct sign; [|rewrite keys_update]; exact N1).
    assert (I2 : In (k, sg sign c) t2).
    { unfold t2, sg. destruct sign; [exact I1|]. apply in_update. right. split; auto. exists c. auto. }
    assert (O2 : forall x d, x <> k -> (In (x, d) t2 <-> In (x, d) t)).
    { intros x d Nx. assert (X : In (x, d) t1 <-> In (x, d) t).
      { split; intros X; [apply (Permutation_in _ PM) in X as [X|X]; [congruence|exact X]|].
        eapply Permutation_in; [apply Permutation_sym, PM|right; exact X]. }
      unfold t2. destruct sign; [exact X|]. rewrite in_update. tauto. }
    assert (P2 : forall P, psum CO P t2 = psum CO P t +c ifP (P k) (sg sign c)).
    { intros P. unfold t2. destruct sign.
      - rewrite (psum_perm P _ _ PM), psum_cons. cbn [fst snd sg]. ring.
      - rewrite (update_psum t1 k _ c P N1 I1), (psum_perm P _ _ PM), psum_cons. cbn [fst snd sg]. destruct (P k); cbn [ifP]; ring. }
    assert (L2 : len t2 = S (len t)) by (unfold t2; destruct sign; [|rewrite update_len]; exact L1).
    assert (F2 : tbl_find KO t2 k = Some (k, sg sign c)) by (apply find_some; auto).
    rewrite F2, (kl_zero _ _ KL). cbn [orb snd]. destruct (cz && c_is_zero CO (sg sign c)) eqn:Z.
    + apply andb_true_iff in Z as [-> Z]. apply (cl_zero _ CL) in Z.
      eexists. split; [reflexivity|]. split; [apply erase_nodup; exact N2|]. split.
      { intros x d Nx. rewrite in_erase. cbn [fst]. rewrite O2 by exact Nx. tauto. }
      split. { intros P. rewrite (erase_psum t2 k _ P N2 I2), P2, Z. destruct (P k); cbn [ifP]; ring. }
      split. { intros _ Hn x d Ix. apply in_erase in Ix as [Ix Nx]. apply O2 in Ix; eauto. }
      pose proof (erase_len t2 k). lia.
    + eexists. split; [reflexivity|]. split; [exact N2|]. split; [exact O2|]. split; [exact P2|]. split; [|lia].
      intros H Hn x d Ix. destruct (k_dec x k) as [->|Nx]; [|apply O2 in Ix; eauto].
      assert (d = sg sign c) as ->.
      { assert (E : tbl_find KO t2 k = Some (k, d)) by (apply find_some; auto). congruence. }
      destruct H as [->|[_ Hc]].
      * cbn [andb] in Z. intros E. apply (cl_zero _ CL) in E. congruence.
      * unfold sg. destruct sign; [exact Hc|apply neg_nz; exact Hc].
Qed.

Lemma keys_inserted sign cz t t' k c x : inserted sign cz t t' k c -> In x (keys t') -> x = k \/ In x (keys t).
Proof.
  intros (_ & O & _) I. destruct (k_dec x k) as [->|N]; [auto|]. right. apply in_map_iff in I as ([y d] & E & I). cbn in E. subst y.
  apply O in I; auto. apply in_map_iff. exists (x, d). auto.
Qed.

(** ** Series *)
Definition tok (n log2 i : nat) (t : table K C) : Prop :=
  NoDup (keys t) /\
  (forall k c, In (k, c) t -> ks_valid KS n k /\ c <> 0c /\ k_hash KO k mod 2 ^ Z.of_nat log2 = Z.of_nat i) /\
  (log2 <> 0%nat -> Z.of_nat (len t) <= max_table_size log2).

Definition wf' (s : series K C Tag) : Prop :=
  sorted_set (s_ss s) /\ (s_log2 s <= max_log2_size)%nat /\ len (s_tables s) = (2 ^ s_log2 s)%nat /\
  forall i t, nth_error (s_tables s) i = Some t -> tok (len (s_ss s)) (s_log2 s) i t.

Lemma in_concat_nth {A} (ts : list (list A)) x : In x (List.concat ts) <-> exists i t, nth_error ts i = Some t /\ In x t.
Proof.
  rewrite in_concat. split.
  - intros (t & I & J). apply In_nth_error in I as [i I]. eauto.
  - intros (i & t & N & J). apply nth_error_In in N. eauto.
Qed.

Lemma nodup_concat (g : K -> nat) : forall (ts : list (table K C)) off,
  (forall i t, nth_error ts i = Some t -> NoDup (keys t) /\ forall k, In k (keys t) -> g k = (off + i)%nat) ->
  NoDup (map fst (List.concat ts)).
Proof.
  induction ts as [|t ts IH]; intros off H; [constructor|]. cbn [List.concat]. rewrite map_app.
  assert (H' : forall i t, nth_error ts i = Some t -> NoDup (keys t) /\ forall k, In k (keys t) -> g k = (S off + i)%nat).
  { intros i u Hu. destruct (H (S i) u Hu) as [A B]. split; auto. intros k Ik. rewrite (B k Ik). lia. }
  destruct (H 0%nat t eq_refl) as [A B]. pose proof (IH (S off) H') as N.
  assert (D : forall k, In k (keys t) -> ~ In k (map fst (List.concat ts))).
  { intros k Ik J. apply in_map_iff in J as ([k' c] & E & J). cbn in E. subst k'. apply in_concat_nth in J as (i & u & Hu & J).
    destruct (H' i u Hu) as [_ B']. specialize (B k Ik). specialize (B' k). rewrite B in B'.
    assert (In k (keys u)) by (apply in_map_iff; exists (k, c); auto). specialize (B' H0). lia. }
  clear H H' IH B. fold (keys t). induction (keys t) as [|k l IHl]; [exact N|]. cbn [app]. inversion A; subst. constructor.
  - rewrite in_app_iff. intros [J|J]; [contradiction|]. apply (D k); [left; reflexivity|exact J].
  - apply IHl; auto. intros x Ix. apply D. right. exact Ix.
Qed.

Lemma nodup_app_r {A} (a b : list A) : NoDup (a ++ b) -> NoDup b.
Proof. induction a; cbn; auto. intros H. inversion H; auto. Qed.
Lemma nodup_app_l {A} (a b : list A) : NoDup (a ++ b) -> NoDup a.
Proof.
  induction a as [|x a IH]; cbn; intros H; [constructor|]. inversion H; subst. constructor; auto.
  intros I. apply H2. apply in_or_app. auto.
Qed.

Lemma wf_iff (s : series K C Tag) : wf KO KS CO s <-> wf' s.
Proof.
  split.
  - intros [A B D N V Z G M]. repeat split; auto.
    + destruct (concat_split _ _ _ H) as (a & b & E & _). unfold terms in N. rewrite E, concat_app, map_app in N.
      cbn [List.concat] in N. rewrite map_app in N. apply nodup_app_r in N. apply nodup_app_l in N. exact N.
    + apply (V k c). apply in_concat_nth. eauto.
    + apply (Z k c). apply in_concat_nth. eauto.
    + symmetry. eapply G; eauto.
    + intros L. apply M; auto. eapply nth_error_In; eauto.
  - intros (A & B & D & T). split; auto.
    + unfold terms. apply (nodup_concat (fun k => Z.to_nat (k_hash KO k mod 2 ^ Z.of_nat (s_log2 s))) _ 0%nat).
      intros i t H. destruct (T i t H) as (N & X & _). split; auto. intros k Ik. apply in_map_iff in Ik as ([k' c] & E & Ik). cbn in E. subst k'.
      destruct (X k c Ik) as (_ & _ & E). rewrite E. lia.
    + intros k c I. apply in_concat_nth in I as (i & t & H & I). destruct (T i t H) as (_ & X & _). apply (X k c I).
    + intros k c I. apply in_concat_nth in I as (i & t & H & I). destruct (T i t H) as (_ & X & _). apply (X k c I).
    + intros i t k c H I. destruct (T i t H) as (_ & X & _). symmetry. apply (X k c I).
    + intros L t I. apply In_nth_error in I as [i H]. destruct (T i t H) as (_ & _ & X). auto.
Qed.

Lemma land_mod h n : 0 <= h -> Z.land h (2 ^ Z.of_nat n - 1) = h mod 2 ^ Z.of_nat n.
Proof. intros H. rewrite <- Z.land_ones by lia. f_equal. rewrite Z.ones_equiv. lia. Qed.

Lemma table_index_ok (s : series K C Tag) k : len (s_tables s) = (2 ^ s_log2 s)%nat ->
  Z.of_nat (table_index KO (len (s_tables s)) k) = k_hash KO k mod 2 ^ Z.of_nat (s_log2 s) /\
  (table_index KO (len (s_tables s)) k < len (s_tables s))%nat.
Proof.
  intros L. pose proof (kl_hash _ _ KL k) as HR. unfold table_index. rewrite L.
  assert (PP : 0 < 2 ^ Z.of_nat (s_log2 s)) by (apply Z.pow_pos_nonneg; lia).
  destruct (Nat.eqb_spec (2 ^ s_log2 s) 1) as [E|E].
  - assert (s_log2 s = 0%nat) as ->.
    { destruct (s_log2 s) as [|n]; auto. exfalso. pose proof (pow2_pos n). cbn [Nat.pow] in E. lia. }
    cbn. rewrite Z.mod_1_r. split; [reflexivity|lia].
  - rewrite pow2_Z, land_mod by lia. pose proof (Z.mod_pos_bound (k_hash KO k) _ PP) as B. rewrite <- pow2_Z in B |- *. lia.
Qed.

Lemma size_terms (s : series K C Tag) : series_size s = len (terms s).
Proof.
  unfold series_size, terms. generalize (s_tables s). intros ts.
  assert (A : forall n, fold_left (fun cur (t : table K C) => (cur + len t)%nat) ts n = (n + len (List.concat ts))%nat).
  { induction ts as [|t ts IH]; intros n; cbn [fold_left List.concat]; [cbn; lia|]. rewrite IH, app_length. lia. }
  apply A.
Qed.

Lemma empty_terms (s : series K C Tag) : series_empty s = true <-> terms s = [].
Proof.
  unfold series_empty, terms. induction (s_tables s) as [|t ts IH]; cbn [forallb List.concat]; [tauto|].
  destruct t; cbn [andb app]; [exact IH|]. split; discriminate.
Qed.

(** Same symbol set, tag and segmentation. *)
Definition same_meta (s s' : series K C Tag) : Prop :=
  s_ss s' = s_ss s /\ s_tag s' = s_tag s /\ s_log2 s' = s_log2 s.

Lemma same_meta_trans a b c : same_meta a b -> same_meta b c -> same_meta a c.
Proof. intros (A & B & D) (A' & B' & D'). repeat split; congruence. Qed.

(** The effect of one insertion on a series. *)
Definition s_inserted (sign : bool) (s s' : series K C Tag) (k : K) (c : C) : Prop :=
  same_meta s s' /\
  (forall x d, x <> k -> (In (x, d) (terms s') <-> In (x, d) (terms s))) /\
  (forall P, psum CO P (terms s') = psum CO P (terms s) +c ifP (P k) (sg sign c)) /\
  (len (terms s') <= S (len (terms s)))%nat.


Lemma tables_put (s : series K C Tag) i t t' a b : s_tables s = a ++ t :: b -> len a = i ->
  s_tables (put_table s i t') = a ++ t' :: b.
Proof. intros E <-. unfold put_table, set_tables. cbn [s_tables]. rewrite E. exact (put_split a b t t'). Qed.

Lemma terms_split (s : series K C Tag) a t b : s_tables s = a ++ t :: b -> terms s = List.concat a ++ t ++ List.concat b.
Proof. intros E. unfold terms. rewrite E, concat_app. reflexivity. Qed.

Lemma put_ok (s : series K C Tag) sign cz i t t' k c : wf' s -> nth_error (s_tables s) i = Some t ->
  Z.of_nat i = k_hash KO k mod 2 ^ Z.of_nat (s_log2 s) ->
  ks_valid KS (len (s_ss s)) k ->
  (cz = true \/ (~ In k (keys t) /\ c <> 0c)) ->
  (s_log2 s <> 0%nat -> Z.of_nat (len t) <> max_table_size (s_log2 s)) ->
  inserted sign cz t t' k c ->
  wf' (put_table s i t') /\ s_inserted sign s (put_table s i t') k c.
Proof.
  intros (W1 & W2 & W3 & W4) Ht TI V CZ SZ (N' & O & PS & NZ & LL).
  destruct (W4 i t Ht) as (N & X & M). destruct (concat_split _ _ _ Ht) as (a & b & E & La).
  pose proof (tables_put s i t t' a b E La) as TP. pose proof (terms_split _ _ _ _ E) as TS. pose proof (terms_split _ _ _ _ TP) as TS'.
  split.
  - split; [exact W1|]. split; [exact W2|]. split.
    { rewrite TP. cbn [s_log2 put_table set_tables]. rewrite <- W3, E, !app_length. reflexivity. }
    cbn [s_ss s_log2 put_table set_tables]. intros j u Hu. fold (put_table s i t') in Hu. rewrite TP in Hu.
    destruct (Nat.eq_dec j i) as [->|NJ].
    + rewrite nth_error_app2, La, Nat.sub_diag in Hu by lia. cbn in Hu. inversion Hu; subst u. split; [exact N'|]. split.
      * intros x d Ix. destruct (k_dec x k) as [->|Nx].
        -- split; [exact V|]. split; [|auto].
           apply (NZ CZ) with (k := k); auto. intros y e Iy. destruct (X y e Iy) as (_ & Z1 & _). exact Z1.
        -- apply O in Ix; auto.
      * intros L1. specialize (M L1). specialize (SZ L1). lia.
    + assert (Hu' : nth_error (s_tables s) j = Some u).
      { rewrite E. destruct (Nat.lt_ge_cases j i).
        - rewrite nth_error_app1 in Hu |- * by lia. exact Hu.
        - rewrite nth_error_app2 in Hu |- * by lia. destruct (j - len a)%nat eqn:D; [lia|]. exact Hu. }
      apply (W4 j u Hu').
  - split; [repeat split|]. split; [|split].
    + intros x d Nx. rewrite TS, TS', !in_app_iff, (O x d Nx). tauto.
    + intros P. rewrite TS, TS', !psum_app, PS. ring.
    + rewrite TS, TS', !app_length. lia.
Qed.

Lemma add_term_gen sign cz ccompat csize au (s : series K C Tag) k c : wf KO KS CO s ->
  ks_valid KS (len (s_ss s)) k ->
  (au = true -> ~ In k (map fst (terms s))) ->
  (cz = true \/ (~ In k (map fst (terms s)) /\ c <> 0c)) ->
  (csize = true \/ s_log2 s = 0%nat) ->
  (exists s', series_add_term KO CO PO sign cz ccompat csize au s k c = Ok s' /\ wf KO KS CO s' /\ s_inserted sign s s' k c) \/
  (series_add_term KO CO PO sign cz ccompat csize au s k c = Throw overflow_error /\
   s_log2 s <> 0%nat /\ max_table_size (s_log2 s) <= Z.of_nat (len (terms s))).
Proof.
  intros W V A CZ SZ. apply wf_iff in W. pose proof W as (W1 & W2 & W3 & W4).
  destruct (table_index_ok s k W3) as [TI TL]. unfold series_add_term.
  set (i := table_index KO (len (s_tables s)) k) in *.
  destruct (nth_error (s_tables s) i) as [t|] eqn:Ht; [|apply nth_error_None in Ht; lia].
  assert (rd (s_tables s) i = Ok t) as -> by (apply rd_some; exact Ht). cbn [bind].
  destruct (W4 i t Ht) as (N & X & M). destruct (concat_split _ _ _ Ht) as (a & b & E & La).
  pose proof (terms_split _ _ _ _ E) as TS.
  assert (SUBK : In k (keys t) -> In k (map fst (terms s))).
  { rewrite TS, !map_app, !in_app_iff. auto. }
  assert (LT : (len t <= len (terms s))%nat) by (rewrite TS, !app_length; lia).
  assert (A' : au = true -> ~ In k (keys t)) by (intros Hu Ik; exact (A Hu (SUBK Ik))).
  assert (CZ' : cz = true \/ ~ In k (keys t) /\ c <> 0c) by (destruct CZ as [?|[? ?]]; [left; assumption|right; split; [intros Ik; auto|assumption]]).
  set (cs := negb (len (s_tables s) =? 1)%nat && csize).
  assert (CS : s_log2 s <> 0%nat -> cs = true).
  { intros L0. unfold cs. destruct SZ as [->|]; [|contradiction]. rewrite andb_true_r. apply negb_true_iff, Nat.eqb_neq. rewrite W3.
    destruct (s_log2 s) as [|n]; [contradiction|]. pose proof (pow2_pos n). cbn [Nat.pow]. lia. }
  assert (CS0 : s_log2 s = 0%nat -> cs = false).
  { intros L0. unfold cs. rewrite W3, L0. reflexivity. }
  destruct (kl_compat _ _ KL k (s_ss s)) as (cb & KC & VC). rewrite (VC V) in KC.
  destruct (Z.eq_dec (Z.of_nat (len t)) (max_table_size (s_log2 s))) as [FULL|NF].
  - destruct (Nat.eq_dec (s_log2 s) 0) as [L0|L0].
    + left. rewrite (CS0 L0).
      destruct (add_table_ok sign cz ccompat false au (s_ss s) (max_table_size (s_log2 s)) t k c N) as (t' & Et & It); auto; try discriminate.
      rewrite Et. cbn [bind]. exists (put_table s i t'). split; [reflexivity|]. rewrite wf_iff.
      eapply put_ok; eauto.
    + right. rewrite (CS L0). unfold series_add_term_table. cbn [andb].
      assert ((Z.of_nat (len t) =? max_table_size (s_log2 s)) = true) as -> by (apply Z.eqb_eq; exact FULL).
      cbn [bind]. split; [reflexivity|]. split; [exact L0|]. rewrite <- FULL. lia.
  - left.
    destruct (add_table_ok sign cz ccompat cs au (s_ss s) (max_table_size (s_log2 s)) t k c N) as (t' & Et & It); auto.
    rewrite Et. cbn [bind]. exists (put_table s i t'). split; [reflexivity|]. rewrite wf_iff.
    eapply put_ok; eauto.
Qed.

(** ** Loops of insertions *)
Definition cv {C'} (sign : bool) (g : C' -> C) (l : list (K * C')) : list (K * C) :=
  map (fun e => (fst e, sg sign (g (snd e)))) l.

Lemma cv_keys {C'} sign (g : C' -> C) l : map fst (cv sign g l) = map fst l.
Proof. unfold cv. rewrite map_map. reflexivity. Qed.

Lemma s_inserted_keys sign (s s' : series K C Tag) k c x : s_inserted sign s s' k c -> In x (map fst (terms s')) -> x = k \/ In x (map fst (terms s)).
Proof.
  intros (_ & O & _) I. destruct (k_dec x k) as [->|N]; [auto|]. right. apply in_map_iff in I as ([y d] & E & I). cbn in E. subst y.
  apply O in I; auto. apply in_map_iff. exists (x, d). auto.
Qed.

Definition s_added (s s' : series K C Tag) (l : list (K * C)) : Prop :=
  same_meta s s' /\ (forall P, psum CO P (terms s') = psum CO P (terms s) +c psum CO P l) /\
  (forall k, In k (map fst (terms s')) -> In k (map fst (terms s)) \/ In k (map fst l)) /\
  (len (terms s') <= len (terms s) + len l)%nat.

Lemma add_terms_ok {C'} (g : C' -> C) sign cz cc cs au : forall (l : list (K * C')) (s : series K C Tag), wf KO KS CO s ->
  (forall k c, In (k, c) l -> ks_valid KS (len (s_ss s)) k) ->
  (au = true \/ cz = false -> NoDup (map fst l) /\ forall k, In k (map fst l) -> ~ In k (map fst (terms s))) ->
  (cz = false -> forall k c, In (k, c) l -> g c <> 0c) ->
  (cs = true \/ s_log2 s = 0%nat) ->
  (exists s', add_terms KO CO PO sign cz cc cs au g l s = Ok s' /\ wf KO KS CO s' /\ s_added s s' (cv sign g l)) \/
  (add_terms KO CO PO sign cz cc cs au g l s = Throw overflow_error /\
   s_log2 s <> 0%nat /\ max_table_size (s_log2 s) <= Z.of_nat (len (terms s) + len l)).
Proof.
  induction l as [|[k c] l IH]; intros s W V U Z SZ.
  - left. exists s. split; [reflexivity|]. split; [exact W|]. split; [repeat split|]. split; [intros P; change (cv sign g []) with (@nil (K * C)); rewrite psum_nil; ring|].
    split; [auto|cbn; lia].
  - unfold add_terms. cbn [rfold fst snd]. fold (@add_terms K C Tag KO CO PO C' sign cz cc cs au g l).
    destruct (add_term_gen sign cz cc cs au s k (g c) W) as [(s1 & E1 & W1 & A1)|(E1 & L1 & M1)].
    + apply (V k c). left. reflexivity.
    + intros ->. destruct U as [_ U]; auto. apply U. left. reflexivity.
    + destruct cz; auto. right. destruct U as [_ U]; auto. split; [apply U; left; reflexivity|]. apply (Z eq_refl k). left. reflexivity.
    + exact SZ.
    + rewrite E1. cbn [bind]. pose proof (fun x => s_inserted_keys _ _ _ _ _ x A1) as SK. pose proof A1 as ((M1 & M2 & M3) & O1 & P1 & L1).
      destruct (IH s1 W1) as [(s' & E' & W' & A')|(E' & L' & B')].
      * intros k' c' I. rewrite M1. apply (V k' c'). right. exact I.
      * intros H. destruct (U H) as [N D]. cbn [map fst] in N, D. inversion N; subst. split; auto.
        intros x Ix J. apply SK in J. destruct J as [->|J]; [contradiction|]. apply (D x); auto. right. exact Ix.
      * intros H k' c' I. apply (Z H k' c'). right. exact I.
      * rewrite M3. exact SZ.
      * left. exists s'. split; [exact E'|]. split; [exact W'|]. destruct A' as (N' & P' & K' & L').
        split; [eapply same_meta_trans; [|exact N']; repeat split; auto|].
        split. { intros P. rewrite P', P1. unfold cv. cbn [map]. rewrite psum_cons. cbn [fst snd]. ring. }
        split. { intros x Ix. destruct (K' x Ix) as [J|J]; [|right; right; exact J]. apply SK in J. destruct J as [->|J]; [right; left; reflexivity|auto]. }
        cbn [cv map List.length] in *. unfold cv in L'. lia.
      * right. split; [exact E'|]. rewrite <- M3. split; [exact L'|]. cbn [List.length]. lia.
    + right. rewrite E1. cbn [bind]. split; [reflexivity|]. split; [exact L1|]. cbn [List.length]. lia.
Qed.

Lemma bind_assoc {A B D} (r : res A) (f : A -> res B) (h : B -> res D) : bind (bind r f) h = bind r (fun x => bind (f x) h).
Proof. destruct r; reflexivity. Qed.

(** With one table, the loop on the table is the loop on the series. *)
Lemma one_table {C'} (g : C' -> C) sign cz cc cs au l (s : series K C Tag) t : s_tables s = [t] ->
  (t' <- add_terms_table KO CO PO sign cz cc false au g (s_ss s) (max_table_size (s_log2 s)) l t ;; Ok (put_table s 0 t')) =
  add_terms KO CO PO sign cz cc cs au g l s.
Proof.
  unfold add_terms, add_terms_table. intros E. destruct s as [ts lg tg ss]. cbn [s_tables] in E. subst ts. cbn [s_ss s_log2]. revert t. induction l as [|e l IH]; intros t; [reflexivity|].
  cbn [rfold]. unfold series_add_term at 1. cbn [s_tables List.length]. unfold table_index. cbn [Nat.eqb rd nth_error bind negb andb s_ss s_log2].
  destruct (series_add_term_table KO CO PO sign cz cc false au ss (max_table_size lg) t (fst e) (g (snd e))); cbn [bind]; [|reflexivity|reflexivity].
  exact (IH _).
Qed.

Lemma sg_hom sign : sg sign 0c = 0c /\ forall a b, sg sign (a +c b) = sg sign a +c sg sign b.
Proof. destruct sign; cbn [sg]; split; intros; ring. Qed.

Lemma psum_cv {C'} (CO' : cf_ops C') sign (g : C' -> C) l P : g (c_zero CO') = 0c -> (forall a b, g (c_add CO' a b) = g a +c g b) ->
  psum CO P (cv sign g l) = sg sign (g (psum CO' P l)).
Proof.
  intros G0 G1. unfold cv. destruct (sg_hom sign) as [S0 S1].
  rewrite (psum_map P (fun k => k) (fun c => sg sign (g c)) CO'); [reflexivity|rewrite G0; exact S0|intros; rewrite G1, S1; reflexivity].
Qed.

Lemma wf_one_table (s : series K C Tag) : wf KO KS CO s -> (1 <? len (s_tables s))%nat = false -> s_log2 s = 0%nat /\ exists t, s_tables s = [t].
Proof.
  intros W H. apply wf_iff in W as (_ & _ & L & _). apply Nat.ltb_ge in H. rewrite L in H.
  destruct (s_log2 s) as [|n]; [|pose proof (pow2_pos n); cbn [Nat.pow] in H; lia]. split; auto. cbn in L.
  destruct (s_tables s) as [|t [|u l]]; try discriminate. eauto.
Qed.

(** The loops of term_merger and in_place_with_identical_ss. *)
Definition add_all {C'} (sign : bool) (g : C' -> C) (s : series K C Tag) (l : list (K * C')) : res (series K C Tag) :=
  if (1 <? len (s_tables s))%nat
  then add_terms KO CO PO sign true false true false g l s
  else
    t <- rd (s_tables s) 0 ;;
    t' <- add_terms_table KO CO PO sign true false false false g (s_ss s) (max_table_size (s_log2 s)) l t ;;
    Ok (put_table s 0 t').

Lemma add_all_ok {C'} sign (g : C' -> C) (s : series K C Tag) (l : list (K * C')) : wf KO KS CO s ->
  (forall k c, In (k, c) l -> ks_valid KS (len (s_ss s)) k) ->
  (exists s', add_all sign g s l = Ok s' /\ wf KO KS CO s' /\ s_added s s' (cv sign g l)) \/
  (add_all sign g s l = Throw overflow_error /\
   s_log2 s <> 0%nat /\ max_table_size (s_log2 s) <= Z.of_nat (len (terms s) + len l)).
Proof.
  intros W V. assert (X : add_all sign g s l = add_terms KO CO PO sign true false true false g l s).
  { unfold add_all. destruct (1 <? len (s_tables s))%nat eqn:E; [reflexivity|]. destruct (wf_one_table s W E) as (_ & t & Et). rewrite Et at 1.
    cbn [rd nth_error bind]. apply one_table. exact Et. }
  rewrite X. apply add_terms_ok; auto; [intros [|]; discriminate|discriminate].
Qed.

(** ** Negation *)
Lemma negate_terms (s : series K C Tag) : terms (series_negate CO s) = map (fun e => (fst e, -c snd e)) (terms s).
Proof. unfold terms, series_negate, set_tables. cbn [s_tables]. rewrite concat_map. reflexivity. Qed.

Lemma negate_ok (s : series K C Tag) : wf KO KS CO s ->
  wf KO KS CO (series_negate CO s) /\ same_meta s (series_negate CO s) /\
  (forall P, psum CO P (terms (series_negate CO s)) = -c (psum CO P (terms s))) /\
  len (terms (series_negate CO s)) = len (terms s).
Proof.
  intros W. split; [|split; [repeat split|split]].
  - apply wf_iff in W as (W1 & W2 & W3 & W4). apply wf_iff. unfold wf'. cbn [series_negate set_tables s_ss s_log2 s_tables].
    split; [auto|]. split; [auto|]. split; [rewrite map_length; auto|].
    intros i t H. rewrite nth_error_map in H. destruct (nth_error (s_tables s) i) as [t0|] eqn:E; [|discriminate]. cbn in H. inversion H; subst t.
    destruct (W4 i t0 E) as (N & X & M). split; [|split].
    + unfold keys. rewrite map_map. cbn [fst]. exact N.
    + intros k c I. apply in_map_iff in I as ([k' c'] & Ek & I). cbn [fst snd] in Ek. inversion Ek; subst. destruct (X _ _ I) as (A & B & D).
      split; [auto|]. split; [apply neg_nz; auto|auto].
    + rewrite map_length. exact M.
  - intros P. rewrite negate_terms. apply (psum_map P (fun k => k) (fun c => -c c) CO); [ring|intros; ring].
  - rewrite negate_terms, map_length. reflexivity.
Qed.
End S.
