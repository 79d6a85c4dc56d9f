(** Series over any coefficient type: insertion, merging, symbol extension. *)
From Coq Require Import ZArith List Bool String Arith Lia Permutation.
From Verif Require Import Base IntModel SymSpec SymModel SymProofs PMonSpec KeyOps SeriesModel SeriesSpec LfSpec SeriesProofs SeriesProofs2.
Import ListNotations.
Open Scope Z_scope.
Open Scope res_scope.
Notation len := List.length.

Lemma opt_ext {A} (a b : option A) : (forall c, a = Some c <-> b = Some c) -> a = b.
Proof. intros H. destruct a as [x|]; [symmetry; apply H; reflexivity|]. destruct b as [y|]; [apply H; reflexivity|reflexivity]. Qed.

Section S.
Context {K C Tag : Type} (KO : key_ops K) (KS : key_sem K) (CO : cf_ops C) (PO : tbl_policy (K * C)) (TO : tag_ops Tag).
Hypothesis KL : key_laws KO KS.
Hypothesis LL : light_laws CO.
Notation series := (series K C Tag).
Notation nonzero := (nonzero CO). Notation merged := (merged CO).
Notation LWF := (lwf KO KS CO).

Definition tget (t : table K C) (k : K) : option C := option_map snd (tbl_find KO t k).
Lemma tget_in t k c : NoDup (map fst t) -> (tget t k = Some c <-> In (k, c) t).
Proof.
  intros N. unfold tget. split.
  - intros H. destruct (tbl_find KO t k) as [e|] eqn:F; [|discriminate]. apply (find_some KO KS KL) in F; [|exact N]. destruct F as [I E]. destruct e as [k' c']. cbn in *. congruence.
  - intros I. assert (F : tbl_find KO t k = Some (k, c)) by (apply (find_some KO KS KL); auto). rewrite F. reflexivity.
Qed.
Lemma tget_none t k : tget t k = None <-> ~ In k (map fst t).
Proof. unfold tget. rewrite <- (find_none KO KS KL t k). destruct (tbl_find KO t k); split; cbn; congruence. Qed.
Lemma tget_perm t t' k : NoDup (map fst t) -> Permutation t t' -> tget t k = tget t' k.
Proof.
  intros N P. assert (N' : NoDup (map fst t')) by (eapply Permutation_NoDup; [apply Permutation_map, P|exact N]).
  apply opt_ext. intros c. rewrite !tget_in by assumption. split; apply Permutation_in; [exact P|symmetry; exact P].
Qed.
Lemma tget_cons k c t x : tget ((k, c) :: t) x = if k_eqb KO x k then Some c else tget t x.
Proof.
  unfold tget, tbl_find. cbn [find fst]. destruct (k_dec KO KS KL x k) as [->|N].
  - rewrite (keqb_refl KO KS KL). reflexivity.
  - assert (k_eqb KO x k = false) as -> by (apply (keqb_neq KO KS KL); exact N). assert (k_eqb KO k x = false) as -> by (apply (keqb_neq KO KS KL); auto). reflexivity.
Qed.
Lemma tget_update t k f x : tget (tbl_update KO t k f) x = if k_eqb KO x k then option_map f (tget t k) else tget t x.
Proof.
  induction t as [|[k' c'] t IH].
  - cbn. destruct (k_eqb KO x k); reflexivity.
  - unfold tbl_update in *. cbn [map fst snd]. destruct (k_dec KO KS KL k' k) as [->|N].
    + rewrite (keqb_refl KO KS KL), !tget_cons. rewrite (keqb_refl KO KS KL). destruct (k_eqb KO x k) eqn:E; [reflexivity|]. exact IH.
    + assert (X : k_eqb KO k' k = false) by (apply (keqb_neq KO KS KL); auto). rewrite X. rewrite !tget_cons. assert (Y : k_eqb KO k k' = false) by (apply (keqb_neq KO KS KL); auto). rewrite Y.
      destruct (k_eqb KO x k') eqn:E; [|exact IH]. apply (kl_eqb _ _ KL) in E. subst k'. rewrite X. reflexivity.
Qed.
Lemma tget_erase t k x : tget (tbl_erase KO t k) x = if k_eqb KO x k then None else tget t x.
Proof.
  induction t as [|[k' c'] t IH]; [cbn; destruct (k_eqb KO x k); reflexivity|]. unfold tbl_erase in *. cbn [filter fst]. destruct (k_dec KO KS KL k' k) as [->|N].
  - rewrite (keqb_refl KO KS KL). cbn [negb]. rewrite IH, tget_cons. destruct (k_eqb KO x k); reflexivity.
  - assert (X : k_eqb KO k' k = false) by (apply (keqb_neq KO KS KL); auto). rewrite X. cbn [negb]. rewrite !tget_cons, IH. destruct (k_eqb KO x k') eqn:E; [|reflexivity].
    apply (kl_eqb _ _ KL) in E. subst k'. rewrite X. reflexivity.
Qed.

Lemma fst_update (t : table K C) k f : map fst (tbl_update KO t k f) = map fst t.
Proof. exact (keys_update KO t k f). Qed.

(** What an insertion into a table does. *)
Definition t_lf (sign : bool) (t t' : table K C) (k : K) (c : C) : Prop :=
  NoDup (map fst t') /\ (forall x, tget t' x = if k_eqb KO x k then merged sign (tget t k) (Some c) else tget t x) /\ (len t' <= S (len t))%nat.

Lemma table_lf sign ccompat csize au ss mts t k c : NoDup (map fst t) ->
  (au = true -> ~ In k (map fst t)) -> (ccompat = true -> k_compatible KO k ss = Ok true) -> (csize = true -> Z.of_nat (len t) <> mts) ->
  exists t', series_add_term_table KO CO PO sign true ccompat csize au ss mts t k c = Ok t' /\ t_lf sign t t' k c.
Proof.
  intros N A CP SZ. unfold series_add_term_table.
  assert (csize && (Z.of_nat (len t) =? mts) = false) as ->.
  { destruct csize; [|reflexivity]. cbn [andb]. apply Z.eqb_neq. auto. }
  assert ((if ccompat then k_compatible KO k ss else Ok true) = Ok true) as -> by (destruct ccompat; auto).
  cbn [bind negb]. rewrite (kl_zero _ _ KL). cbn [andb orb].
  set (p := tbl_try_emplace KO PO t k c). destruct p as [t1 ins] eqn:EP. unfold p in EP.
  set (t2 := if au || ins then if sign then t1 else tbl_update KO t1 k (c_neg CO) else tbl_update KO t1 k (fun x => if sign then c_add CO x c else c_sub CO x c)).
  assert (X : NoDup (map fst t2) /\ (len t2 <= S (len t))%nat /\ exists d, merged sign (tget t k) (Some c) = nonzero d /\ forall x, tget t2 x = if k_eqb KO x k then Some d else tget t x).
  { unfold tbl_try_emplace in EP. destruct (tbl_find KO t k) as [e|] eqn:F.
    - injection EP as <- <-. assert (T : tget t k = Some (snd e)) by (unfold tget; rewrite F; reflexivity).
      assert (au = false) as -> . { destruct au; [|reflexivity]. elim (A eq_refl). apply (find_some KO KS KL) in F; [|exact N]. destruct F as [I <-]. apply in_map. exact I. }
      unfold t2. cbn [orb]. split; [rewrite fst_update; exact N|]. split; [rewrite (update_len KO t k); lia|].
      exists (if sign then c_add CO (snd e) c else c_sub CO (snd e) c). rewrite T. split; [reflexivity|]. intros x. rewrite tget_update, T. reflexivity.
    - injection EP as <- <-. assert (T : tget t k = None) by (unfold tget; rewrite F; reflexivity).
      assert (PM : Permutation ((k, c) :: t) (reorder PO ((k, c) :: t))) by (symmetry; apply reorder_perm).
      assert (N0 : NoDup (map fst ((k, c) :: t))) by (cbn [map fst]; constructor; [apply tget_none; exact T|exact N]).
      assert (N1 : NoDup (map fst (reorder PO ((k, c) :: t)))) by (eapply Permutation_NoDup; [apply Permutation_map, PM|exact N0]).
      assert (G1 : forall x, tget (reorder PO ((k, c) :: t)) x = if k_eqb KO x k then Some c else tget t x) by (intros x; rewrite <- (tget_perm _ _ x N0 PM); apply tget_cons).
      assert (LN : len (reorder PO ((k, c) :: t)) = S (len t)) by (rewrite <- (Permutation_length PM); reflexivity).
      rewrite T. unfold t2. rewrite orb_true_r. cbn iota. destruct sign.
      + split; [exact N1|]. split; [lia|]. exists c. split; [reflexivity|]. exact G1.
      + split; [rewrite fst_update; exact N1|]. split; [rewrite (update_len KO _ k); lia|]. exists (c_neg CO c). split; [reflexivity|].
        intros x. rewrite tget_update, !G1, (keqb_refl KO KS KL). destruct (k_eqb KO x k); reflexivity. }
  destruct X as (N2 & L2 & d & EM & G2). fold t2.
  assert (F2 : match tbl_find KO t2 k with Some e => c_is_zero CO (snd e) | None => false end = c_is_zero CO d).
  { pose proof (G2 k) as H. rewrite (keqb_refl KO KS KL) in H. unfold tget in H. destruct (tbl_find KO t2 k) as [e|]; [|discriminate]. cbn in H. congruence. }
  rewrite F2. unfold LfSpec.nonzero in EM. destruct (c_is_zero CO d).
  - exists (tbl_erase KO t2 k). split; [reflexivity|]. split; [apply (erase_nodup KO KS KL); exact N2|]. split.
    + intros x. rewrite tget_erase, G2, EM. destruct (k_eqb KO x k); reflexivity.
    + pose proof (erase_len KO t2 k). lia.
  - exists t2. split; [reflexivity|]. split; [exact N2|]. split; [|exact L2]. intros x. rewrite G2, EM. reflexivity.
Qed.
Lemma tget_app a b k : tget (a ++ b) k = match tget a k with Some c => Some c | None => tget b k end.
Proof. induction a as [|[x c] a IH]; [reflexivity|]. cbn [app]. rewrite !tget_cons, IH. destruct (k_eqb KO k x); reflexivity. Qed.

Definition sget (s : series) (k : K) : option C := tget (terms s) k.
Lemma sget_in s k c : wf KO KS CO s -> (sget s k = Some c <-> In (k, c) (terms s)).
Proof. intros W. apply tget_in. apply (wf_keys _ _ _ _ W). Qed.

Definition s_lf (sign : bool) (s s' : series) (k : K) (c : C) : Prop :=
  same_meta s s' /\ (forall x, sget s' x = if k_eqb KO x k then merged sign (sget s k) (Some c) else sget s x) /\ (len (terms s') <= S (len (terms s)))%nat.

Lemma nonzero_is c d : nonzero c = Some d -> c_is_zero CO d = false.
Proof. unfold LfSpec.nonzero. destruct (c_is_zero CO c) eqn:E; congruence. Qed.
Lemma merged_nz sign a b d : (forall c, a = Some c -> c_is_zero CO c = false) -> merged sign a b = Some d -> c_is_zero CO d = false.
Proof. intros H. destruct a as [a|], b as [b|]; cbn [LfSpec.merged]; intros E; try (apply nonzero_is in E; exact E); auto; discriminate. Qed.
Lemma nz_zero c : c_is_zero CO c = false -> c <> c_zero CO.
Proof. intros H ->. rewrite (ll_zero _ LL) in H. discriminate. Qed.

Lemma put_lf (s : series) sign i t t' k c : LWF s -> nth_error (s_tables s) i = Some t ->
  Z.of_nat i = k_hash KO k mod 2 ^ Z.of_nat (s_log2 s) -> ks_valid KS (len (s_ss s)) k ->
  (s_log2 s <> 0%nat -> Z.of_nat (len t) <> max_table_size (s_log2 s)) ->
  t_lf sign t t' k c -> LWF (put_table s i t') /\ s_lf sign s (put_table s i t') k c.
Proof.
  intros [W NZ] Ht TI V SZ (N' & G & LN). pose proof (proj1 (wf_iff KO KS CO s) W) as (W1 & W2 & W3 & W4).
  destruct (W4 i t Ht) as (N & X & M). destruct (concat_split _ _ _ Ht) as (a & b & E & La).
  pose proof (tables_put s i t t' a b E La) as TP. pose proof (terms_split _ _ _ _ E) as TS. pose proof (terms_split _ _ _ _ TP) as TS'.
  assert (OTH : forall l j0, (forall j u, nth_error l j = Some u -> nth_error (s_tables s) (j0 + j) = Some u) -> (forall j, (j < len l)%nat -> (j0 + j)%nat <> i) -> tget (List.concat l) k = None).
  { intros l j0 H1 H2. apply tget_none. intros I. apply in_map_iff in I as ([k' c'] & Ek & I). cbn in Ek. subst k'. apply in_concat_nth in I as (j & u & Hj & Iu).
    destruct (W4 _ _ (H1 j u Hj)) as (_ & Y & _). destruct (Y k c' Iu) as (_ & _ & HH). apply (H2 j); [apply nth_error_Some; congruence|]. lia. }
  assert (OA : tget (List.concat a) k = None).
  { apply (OTH a 0%nat); [|intros; lia]. intros j u Hj. rewrite E. cbn [Nat.add]. rewrite nth_error_app1; [exact Hj|]. apply nth_error_Some. congruence. }
  assert (OB : tget (List.concat b) k = None).
  { apply (OTH b (S i)); [|intros; lia]. intros j u Hj. rewrite E, nth_error_app2 by lia. replace (S i + j - len a)%nat with (S j) by lia. exact Hj. }
  assert (SG : forall x, sget (put_table s i t') x = if k_eqb KO x k then merged sign (sget s k) (Some c) else sget s x).
  { intros x. unfold sget. rewrite TS, TS', !tget_app, G. destruct (k_dec KO KS KL x k) as [->|Nx].
    - rewrite (keqb_refl KO KS KL), OA, OB. destruct (merged sign (tget t k) (Some c)) eqn:Q; destruct (tget t k); rewrite Q; reflexivity.
    - assert (k_eqb KO x k = false) as -> by (apply (keqb_neq KO KS KL); exact Nx). reflexivity. }
  assert (NZ' : forall x d, In (x, d) t' -> c_is_zero CO d = false).
  { intros x d I. apply (tget_in t') in I; [|exact N']. rewrite G in I. destruct (k_eqb KO x k).
    - eapply merged_nz; [|exact I]. intros e He. apply (tget_in t) in He; [|exact N]. eapply NZ. rewrite TS. apply in_or_app. right. apply in_or_app. left. exact He.
    - apply (tget_in t) in I; [|exact N]. eapply NZ. rewrite TS. apply in_or_app. right. apply in_or_app. left. exact I. }
  split.
  - split.
    + apply wf_iff. split; [exact W1|]. split; [exact W2|]. split.
      { rewrite TP. cbn [s_log2 put_table set_tables]. rewrite <- W3, E, !app_length. reflexivity. }
      cbn [s_ss s_log2 put_table set_tables]. intros j u Hu. fold (put_table s i t') in Hu. rewrite TP in Hu.
      destruct (Nat.eq_dec j i) as [->|NJ].
      * rewrite nth_error_app2, La, Nat.sub_diag in Hu by lia. cbn in Hu. inversion Hu; subst u. split; [exact N'|]. split.
        -- intros x d Ix. pose proof (nz_zero d (NZ' x d Ix)) as Zd. destruct (k_dec KO KS KL x k) as [->|Nx]; [auto|].
           apply (tget_in t') in Ix; [|exact N']. rewrite G in Ix. assert (Q : k_eqb KO x k = false) by (apply (keqb_neq KO KS KL); exact Nx). rewrite Q in Ix.
           apply (tget_in t) in Ix; [|exact N]. exact (X x d Ix).
        -- intros L1. specialize (M L1). specialize (SZ L1). lia.
      * assert (Hu' : nth_error (s_tables s) j = Some u).
        { rewrite E. destruct (Nat.lt_ge_cases j i).
          - rewrite nth_error_app1 in Hu |- * by lia. exact Hu.
          - rewrite nth_error_app2 in Hu |- * by lia. destruct (j - len a)%nat eqn:D; [lia|]. exact Hu. }
        apply (W4 j u Hu').
    + intros x d I. rewrite TS', !in_app_iff in I. destruct I as [I|[I|I]]; [|exact (NZ' x d I)|]; eapply NZ; rewrite TS, !in_app_iff; [left|right; right]; exact I.
  - split; [repeat split|]. split; [exact SG|]. rewrite TS, TS', !app_length. lia.
Qed.

Lemma add_term_lf sign cc cs au (s : series) k c : LWF s -> ks_valid KS (len (s_ss s)) k ->
  (au = true -> ~ In k (map fst (terms s))) -> (cs = true \/ s_log2 s = 0%nat) ->
  (exists s', series_add_term KO CO PO sign true cc cs au s k c = Ok s' /\ LWF s' /\ s_lf sign s s' k c) \/
  (series_add_term KO CO PO sign true cc cs au s k c = Throw overflow_error /\ s_log2 s <> 0%nat /\ max_table_size (s_log2 s) <= Z.of_nat (len (terms s))).
Proof.
  intros LW V A SZ. pose proof (proj1 (wf_iff KO KS CO s) (lw_wf _ _ _ _ LW)) as (W1 & W2 & W3 & W4).
  destruct (table_index_ok KO KS KL s k W3) as [TI TL]. unfold series_add_term. set (i := table_index KO (len (s_tables s)) k) in *.
  destruct (nth_error (s_tables s) i) as [t|] eqn:Ht; [|apply nth_error_None in Ht; lia].
  assert (rd (s_tables s) i = Ok t) as -> by (apply rd_some; exact Ht). cbn [bind].
  destruct (W4 i t Ht) as (N & X & M). destruct (concat_split _ _ _ Ht) as (a & b & E & La). pose proof (terms_split _ _ _ _ E) as TS.
  assert (SUBK : In k (map fst t) -> In k (map fst (terms s))) by (rewrite TS, !map_app, !in_app_iff; auto).
  assert (LT : (len t <= len (terms s))%nat) by (rewrite TS, !app_length; lia).
  assert (A' : au = true -> ~ In k (map fst t)) by (intros Hu Ik; exact (A Hu (SUBK Ik))).
  set (cs' := negb (len (s_tables s) =? 1)%nat && cs).
  assert (CS : s_log2 s <> 0%nat -> cs' = true).
  { intros L0. unfold cs'. destruct SZ as [->|]; [|contradiction]. rewrite andb_true_r. apply negb_true_iff, Nat.eqb_neq. rewrite W3.
    destruct (s_log2 s) as [|n]; [contradiction|]. pose proof (pow2_pos n). cbn [Nat.pow]. lia. }
  assert (CS0 : s_log2 s = 0%nat -> cs' = false) by (intros L0; unfold cs'; rewrite W3, L0; reflexivity).
  destruct (kl_compat _ _ KL k (s_ss s)) as (cb & KC & VC). rewrite (VC V) in KC.
  destruct (Z.eq_dec (Z.of_nat (len t)) (max_table_size (s_log2 s))) as [FULL|NF].
  - destruct (Nat.eq_dec (s_log2 s) 0) as [L0|L0].
    + left. rewrite (CS0 L0). destruct (table_lf sign cc false au (s_ss s) (max_table_size (s_log2 s)) t k c N) as (t' & Et & It); auto; try discriminate.
      rewrite Et. cbn [bind]. exists (put_table s i t'). split; [reflexivity|]. eapply put_lf; eauto.
    + right. rewrite (CS L0). unfold series_add_term_table. cbn [andb].
      assert ((Z.of_nat (len t) =? max_table_size (s_log2 s)) = true) as -> by (apply Z.eqb_eq; exact FULL).
      cbn [bind]. split; [reflexivity|]. split; [exact L0|]. rewrite <- FULL. lia.
  - left. destruct (table_lf sign cc cs' au (s_ss s) (max_table_size (s_log2 s)) t k c N) as (t' & Et & It); auto.
    rewrite Et. cbn [bind]. exists (put_table s i t'). split; [reflexivity|]. eapply put_lf; eauto.
Qed.

Definition s_all (sign : bool) (s s' : series) (l : list (K * C)) : Prop :=
  same_meta s s' /\ (forall x, sget s' x = merged sign (sget s x) (tget l x)) /\ (len (terms s') <= len (terms s) + len l)%nat.
Lemma merged_none sign a : merged sign a None = a.
Proof. destruct a; reflexivity. Qed.

Lemma add_terms_lf sign cc cs au : forall (l : list (K * C)) (s : series), LWF s -> (forall k c, In (k, c) l -> ks_valid KS (len (s_ss s)) k) ->
  NoDup (map fst l) -> (au = true -> forall k, In k (map fst l) -> ~ In k (map fst (terms s))) -> (cs = true \/ s_log2 s = 0%nat) ->
  (exists s', add_terms KO CO PO sign true cc cs au (fun c => c) l s = Ok s' /\ LWF s' /\ s_all sign s s' l) \/
  (add_terms KO CO PO sign true cc cs au (fun c => c) l s = Throw overflow_error /\ s_log2 s <> 0%nat /\ max_table_size (s_log2 s) <= Z.of_nat (len (terms s) + len l)).
Proof.
  induction l as [|[k c] l IH]; intros s W V N A SZ.
  - left. exists s. split; [reflexivity|]. split; [exact W|]. split; [repeat split|]. split; [intros x; rewrite merged_none; reflexivity|cbn; lia].
  - unfold add_terms. cbn [rfold fst snd]. cbn [map fst] in N, A. inversion N as [|? ? NI N']; subst.
    destruct (add_term_lf sign cc cs au s k c W) as [(s1 & E1 & W1 & (M1 & M2 & M3) & G1 & L1)|(E1 & L1 & B1)].
    + apply (V k c). left. reflexivity.
    + intros H. apply (A H). left. reflexivity.
    + exact SZ.
    + rewrite E1. cbn [bind]. change (rfold (fun s e => series_add_term KO CO PO sign true cc cs au s (fst e) (snd e)) l s1) with (add_terms KO CO PO sign true cc cs au (fun c => c) l s1).
      destruct (IH s1 W1) as [(s' & E' & W' & (T1 & T2 & T3) & G' & L')|(E' & L' & B')].
      * intros k' c' I. rewrite M1. apply (V k' c'). right. exact I.
      * exact N'.
      * intros H x Ix J. assert (X : sget s1 x <> None).
        { unfold sget. intros Q. apply (tget_none (terms s1) x) in Q. contradiction. }
        rewrite G1 in X. destruct (k_dec KO KS KL x k) as [->|Nx]; [contradiction|]. assert (Q : k_eqb KO x k = false) by (apply (keqb_neq KO KS KL); exact Nx). rewrite Q in X.
        apply X. apply tget_none. apply (A H). right. exact Ix.
      * rewrite M3. exact SZ.
      * left. exists s'. split; [exact E'|]. split; [exact W'|]. split; [split; [congruence|split; congruence]|]. split; [|cbn [List.length]; lia].
        intros x. rewrite G', G1, tget_cons. destruct (k_dec KO KS KL x k) as [->|Nx].
        -- rewrite (keqb_refl KO KS KL). assert (tget l k = None) as -> by (apply tget_none; exact NI). apply merged_none.
        -- assert (k_eqb KO x k = false) as -> by (apply (keqb_neq KO KS KL); exact Nx). reflexivity.
      * right. split; [exact E'|]. rewrite <- M3. split; [exact L'|]. cbn [List.length]. lia.
    + right. rewrite E1. cbn [bind]. split; [reflexivity|]. split; [exact L1|]. cbn [List.length]. lia.
Qed.

Lemma add_all_lf sign (s : series) (l : list (K * C)) : LWF s -> (forall k c, In (k, c) l -> ks_valid KS (len (s_ss s)) k) -> NoDup (map fst l) ->
  (exists s', add_all KO CO PO sign (fun c => c) s l = Ok s' /\ LWF s' /\ s_all sign s s' l) \/
  (add_all KO CO PO sign (fun c => c) s l = Throw overflow_error /\ s_log2 s <> 0%nat /\ max_table_size (s_log2 s) <= Z.of_nat (len (terms s) + len l)).
Proof.
  intros W V N. assert (X : add_all KO CO PO sign (fun c => c) s l = add_terms KO CO PO sign true false true false (fun c => c) l s).
  { unfold add_all. destruct (1 <? len (s_tables s))%nat eqn:E; [reflexivity|]. destruct (wf_one_table KO KS CO s (lw_wf _ _ _ _ W) E) as (_ & t & Et). rewrite Et at 1.
    cbn [rd nth_error bind]. apply one_table. exact Et. }
  rewrite X. apply add_terms_lf; auto. discriminate.
Qed.

Lemma negate_lf (s : series) : LWF s -> LWF (series_negate CO s) /\ same_meta s (series_negate CO s) /\
  (forall x, sget (series_negate CO s) x = option_map (c_neg CO) (sget s x)) /\ len (terms (series_negate CO s)) = len (terms s).
Proof.
  intros [W NZ]. split; [|split; [repeat split|split]].
  - split.
    + apply wf_iff in W as (W1 & W2 & W3 & W4). apply wf_iff. unfold wf'. cbn [series_negate set_tables s_ss s_log2 s_tables].
      split; [auto|]. split; [auto|]. split; [rewrite map_length; auto|].
      intros i t H. rewrite nth_error_map in H. destruct (nth_error (s_tables s) i) as [t0|] eqn:E; [|discriminate]. cbn in H. inversion H; subst t.
      destruct (W4 i t0 E) as (N & X & M). split; [|split].
      * unfold keys. rewrite map_map. cbn [fst]. exact N.
      * intros k c I. apply in_map_iff in I as ([k' c'] & Ek & I). cbn [fst snd] in Ek. inversion Ek; subst. destruct (X _ _ I) as (A & B & D).
        split; [auto|]. split; [|auto]. apply nz_zero. rewrite (ll_neg _ LL). eapply NZ. apply in_concat_nth. eauto.
      * rewrite map_length. exact M.
    + intros k c I. rewrite negate_terms in I. apply in_map_iff in I as ([k' c'] & E & I). cbn [fst snd] in E. inversion E; subst. rewrite (ll_neg _ LL). eauto.
  - intros x. unfold sget. rewrite negate_terms. clear W NZ. induction (terms s) as [|[k c] l IH]; [reflexivity|]. cbn [map fst snd]. rewrite !tget_cons. destruct (k_eqb KO x k); [reflexivity|exact IH].
  - rewrite negate_terms, map_length. reflexivity.
Qed.
End S.
