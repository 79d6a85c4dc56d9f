(** Property C47: serialization.  Vocabulary: SerSpec.v ([reads rd e a]: the reader rd recovers a from the values e, whatever follows, and detects every truncation of e;
    [same_series]: equal but for the order of the terms within each segment). *)
From Coq Require Import ZArith List Bool String Arith Permutation Lia.
From Verif Require Import Base KpackModel KpackSpec KpackProofs P_Kpack IntModel IntSpec IntProofs SymModel SymSpec PMonModel PMonSpec PMonProofs PMonProofs2 DPMModel DPMSpec DPMProofs KeyOps KeyInst
  SeriesModel SeriesSpec SeriesProofs SeriesProofs2 PSModel PSSpec SerModel SerSpec.
Import ListNotations.
Open Scope Z_scope.
Open Scope res_scope.
Local Notation len := List.length.

(** * Readers *)
Lemma reads_ret {A} (a : A) : reads (fun ar => Ok (a, ar)) [] a.
Proof. split; [reflexivity|]. intros p q E N. destruct p, q; try discriminate; congruence. Qed.
Lemma app_split {A} (a b p q : list A) : a ++ b = p ++ q -> (exists q', a = p ++ q' /\ q' <> []) \/ (exists p', p = a ++ p' /\ b = p' ++ q).
Proof.
  revert p. induction a as [|x a IH]; intros p E; cbn in E; [right; exists p; auto|]. destruct p as [|y p]; cbn in E; [left; exists (x :: a); split; [reflexivity|discriminate]|].
  injection E as -> E. destruct (IH p E) as [(q' & -> & N)|(p' & -> & ->)]; [left; exists q'; auto|right; exists p'; auto].
Qed.
Lemma reads_bind {A B} (r1 : archive -> res (A * archive)) (r2 : A -> archive -> res (B * archive)) e1 e2 a b : reads r1 e1 a -> reads (r2 a) e2 b -> reads (fun ar => x <- r1 ar ;; let '(a', ar') := x in r2 a' ar') (e1 ++ e2) b.
Proof.
  intros [A1 A2] [B1 B2]. split.
  - intros rest. rewrite <- app_assoc, A1. cbn [bind]. apply B1.
  - intros p q E N. destruct (app_split _ _ _ _ E) as [(q' & E' & N')|(p' & -> & E')]; [rewrite (A2 p q' E' N'); reflexivity|]. rewrite A1. cbn [bind]. exact (B2 p' q E' N).
Qed.
Lemma reads_ext {A} (r1 r2 : archive -> res (A * archive)) e a : (forall ar, r1 ar = r2 ar) -> reads r2 e a -> reads r1 e a.
Proof. intros H [A1 A2]. split; intros; rewrite H; eauto. Qed.
Lemma reads_int t z : has_value t z -> reads (in_int t) (out_int z) z.
Proof.
  intros H. apply in_ity_iff in H. split; [intros rest; cbn; rewrite H; reflexivity|]. intros p q E N. destruct p as [|x p]; [reflexivity|]. injection E as _ E. destruct p, q; try discriminate. congruence.
Qed.
Lemma reads_string s : reads in_string (out_string s) s.
Proof. split; [reflexivity|]. intros p q E N. destruct p as [|x p]; [reflexivity|]. injection E as _ E. destruct p, q; try discriminate. congruence. Qed.
Lemma reads_n {A} (rd : archive -> res (A * archive)) (e : A -> archive) l : (forall a, In a l -> reads rd (e a) a) -> reads (in_n rd (len l)) (List.concat (map e l)) l.
Proof.
  induction l as [|a l IH]; intros H; [exact (reads_ret [])|]. cbn [map List.concat len in_n].
  apply (reads_bind rd (fun a0 ar1 => '(l', ar2) <- in_n rd (len l) ar1 ;; Ok (a0 :: l', ar2)) _ _ a); [apply H; left; reflexivity|].
  rewrite <- (app_nil_r (List.concat _)). apply (reads_bind (in_n rd (len l)) (fun l' ar2 => Ok (a :: l', ar2)) _ _ l); [apply IH; intros; apply H; right; assumption|exact (reads_ret (a :: l))].
Qed.
Lemma size_value n : Z.of_nat n <= imax size_t -> has_value size_t (Z.of_nat n).
Proof. intros H. apply in_ity_iff. apply andb_true_iff. rewrite !Z.leb_le. change (imin size_t) with 0. lia. Qed.

(** C47. Symbol sets. *)
Theorem symbol_set_round_trip : forall ss, sized ss -> reads ss_load (ss_save ss) ss.
Proof.
  intros ss L. apply (reads_bind (in_int size_t) (fun size ar1 => '(seq, ar2) <- in_n in_string (Z.to_nat size) ar1 ;; Ok (seq, ar2)) _ _ (Z.of_nat (len ss))); [apply reads_int, size_value, L|].
  rewrite Nat2Z.id, <- (app_nil_r (List.concat _)). apply (reads_bind (in_n in_string (len ss)) (fun seq ar2 => Ok (seq, ar2)) _ _ ss); [apply reads_n; intros; apply reads_string|exact (reads_ret ss)].
Qed.
(** C47. Monomials. *)
Lemma code_value D s v : packable D -> good_size D s -> code_ok D s v -> has_value (kd_ty D) v.
Proof. intros HD G O. apply in_ity_iff. apply andb_true_iff. rewrite !Z.leb_le. apply (code_type D s); auto using packable_ok. Qed.
Theorem pm_round_trip : forall D n p vs, packable D -> represents D n p vs -> reads (pm_load D) (pm_save p) p.
Proof.
  intros D n p vs HD R. apply reads_int. destruct n as [|n].
  - destruct R as (L & _ & _ & ->). destruct vs; [|discriminate]. destruct HD as [->|[->|[->| ->]]]; split; vm_compute; congruence.
  - pose proof R as (_ & L & _). apply (code_value D (S n)); auto; [split; lia|]. eapply rep_code; eauto.
Qed.
Theorem dpm_round_trip : forall D ps n d vs, packable D -> psize_ok D ps -> drepresents D ps n d vs -> sized d -> reads (dpm_load D) (dpm_save d) d.
Proof.
  intros D ps n d vs HD G (L & F & E) S. apply (reads_bind (in_int size_t) (fun size ar1 => '(c, ar2) <- in_n (in_int (kd_ty D)) (Z.to_nat size) ar1 ;; Ok (c, ar2)) _ _ (Z.of_nat (len d))); [apply reads_int, size_value, S|].
  rewrite Nat2Z.id, <- (app_nil_r (List.concat _)). apply (reads_bind (in_n (in_int (kd_ty D)) (len d)) (fun seq ar2 => Ok (seq, ar2)) _ _ d); [apply reads_n|exact (reads_ret d)].
  intros z I. apply reads_int. apply (code_value D ps); auto. subst d. unfold dcode in I. apply in_map_iff in I as (i & <- & _). apply kron_range; auto using packable_ok.
  - apply Forall_firstn. rewrite <- (firstn_skipn (i * ps) vs) in F. apply Forall_app in F. tauto.
  - rewrite firstn_length. lia.
Qed.
(** C47. Truncations (the tag of power series). *)
Theorem trunc_round_trip : forall tD t, trunc_ok tD t -> (forall d ss, t = partial_truncation d ss -> sized ss) -> reads (trunc_load tD) (trunc_save t) t.
Proof.
  intros tD t T S. assert (V : forall z, 0 <= z <= 2 -> has_value size_t z) by (intros z H; apply in_ity_iff; apply andb_true_iff; rewrite !Z.leb_le; change (imin size_t) with 0; change (imax size_t) with 18446744073709551615; lia).
  set (rest := fun (idx : Z) (ar1 : archive) => if idx =? 0 then Ok (no_truncation, ar1) else if idx =? 1 then '(n, ar2) <- in_int tD ar1 ;; Ok (total_truncation n, ar2)
    else if idx =? 2 then '(n, ar2) <- in_int tD ar1 ;; '(ss, ar3) <- ss_load ar2 ;; Ok (partial_truncation n ss, ar3) else Throw invalid_argument).
  destruct t as [|d|d ss]; cbn [trunc_save trunc_ok] in *.
  - rewrite <- (app_nil_r (out_int 0)). apply (reads_bind (in_int size_t) rest _ _ 0); [apply reads_int, V; lia|exact (reads_ret no_truncation)].
  - apply (reads_bind (in_int size_t) rest _ _ 1); [apply reads_int, V; lia|]. rewrite <- (app_nil_r (out_int d)). apply (reads_bind (in_int tD) (fun n ar2 => Ok (total_truncation n, ar2)) _ _ d); [apply reads_int; exact T|exact (reads_ret (total_truncation d))].
  - destruct T as [T SS]. apply (reads_bind (in_int size_t) rest _ _ 2); [apply reads_int, V; lia|]. apply (reads_bind (in_int tD) (fun n ar2 => '(ss, ar3) <- ss_load ar2 ;; Ok (partial_truncation n ss, ar3)) _ _ d); [apply reads_int; exact T|].
    rewrite <- (app_nil_r (ss_save ss)). apply (reads_bind ss_load (fun ss ar3 => Ok (partial_truncation d ss, ar3)) _ _ ss); [apply symbol_set_round_trip; eapply S; reflexivity|exact (reads_ret (partial_truncation d ss))].
Qed.
(** C47. An archive with an index that is not one of a truncation is rejected. *)
Theorem trunc_bad_index : forall tD idx rest, has_value size_t idx -> 2 < idx -> trunc_load tD (out_int idx ++ rest) = Throw invalid_argument.
Proof.
  intros tD idx rest H L. unfold trunc_load. destruct (reads_int size_t idx H) as [-> _]. cbn [bind]. destruct (Z.eqb_spec idx 0); [lia|]. destruct (Z.eqb_spec idx 1); [lia|]. destruct (Z.eqb_spec idx 2); [lia|reflexivity].
Qed.

(** * Series *)
Section Ser.
Context {K C Tag : Type} (KO : key_ops K) (KS : key_sem K) (CO : cf_ops C) (PO : tbl_policy (K * C)) (TO : tag_ops Tag) (KL : key_laws KO KS).
Context (k_save : K -> archive) (k_load : archive -> res (K * archive)) (c_save : C -> archive) (c_load : archive -> res (C * archive)) (t_save : Tag -> archive) (t_load : archive -> res (Tag * archive)).
Notation series := (series K C Tag).
Notation WF := (wf KO KS CO).
Notation save := (series_save k_save c_save t_save).
Notation load := (series_load KO CO PO TO k_load c_load t_load).
Notation table_save := (table_save k_save c_save).
Notation load_terms := (load_terms KO CO PO k_load c_load).
Notation load_tables := (load_tables KO CO PO k_load c_load).

Lemma load_terms_ok ss (l : table K C) : forall t, NoDup (map fst (l ++ t)) -> (forall k c, In (k, c) l -> reads k_load (k_save k) k /\ reads c_load (c_save c) c) ->
  exists t', Permutation t' (l ++ t) /\ reads (load_terms ss (len l) t) (List.concat (map (fun e => k_save (fst e) ++ c_save (snd e)) l)) t'.
Proof.
  induction l as [|[k c] l IH]; intros t N H; [exists t; split; [apply Permutation_refl|exact (reads_ret t)]|].
  destruct (H k c (or_introl eq_refl)) as [HK HC]. cbn [app map fst] in N. apply NoDup_cons_iff in N as [NI N].
  assert (FN : tbl_find KO t k = None) by (apply (find_none KO KS KL); intros I; apply NI; rewrite map_app; apply in_or_app; right; exact I).
  set (t1 := reorder PO ((k, c) :: t)). assert (P1 : Permutation t1 ((k, c) :: t)) by apply reorder_perm.
  destruct (IH t1) as (t' & P & R).
  - apply (Permutation_NoDup (l := map fst ((k, c) :: l ++ t))); [apply Permutation_map|cbn [map fst]; constructor; auto].
    etransitivity; [apply Permutation_middle|]. apply Permutation_app_head. symmetry. exact P1.
  - intros k' c' I. apply H. right. exact I.
  - exists t'. split.
    + etransitivity; [exact P|]. etransitivity; [apply Permutation_app_head; exact P1|]. symmetry. apply Permutation_middle.
    + cbn [map List.concat len SerModel.load_terms fst snd]. rewrite <- app_assoc.
      apply (reads_bind k_load (fun k ar1 => '(c, ar2) <- c_load ar1 ;; t' <- series_add_term_table KO CO PO true false false false true ss 0 t k c ;; load_terms ss (len l) t' ar2) _ _ k _ HK).
      apply (reads_bind c_load (fun c ar2 => t' <- series_add_term_table KO CO PO true false false false true ss 0 t k c ;; load_terms ss (len l) t' ar2) _ _ c _ HC).
      eapply reads_ext; [|exact R]. intros ar. unfold series_add_term_table, tbl_try_emplace. rewrite FN. reflexivity.
Qed.
Lemma load_tables_ok ss (ts : list (table K C)) : (forall t, In t ts -> sized t /\ NoDup (map fst t)) -> (forall k c, In (k, c) (List.concat ts) -> reads k_load (k_save k) k /\ reads c_load (c_save c) c) ->
  exists ts', Forall2 (@Permutation (K * C)) ts' ts /\ reads (load_tables ss (repeat [] (len ts))) (List.concat (map table_save ts)) ts'.
Proof.
  induction ts as [|t ts IH]; intros N H; [exists []; split; [constructor|exact (reads_ret [])]|]. destruct (N t (or_introl eq_refl)) as [S ND].
  destruct (load_terms_ok ss t []) as (t' & P & R); [rewrite app_nil_r; exact ND|intros k c I; apply H; cbn [List.concat]; apply in_or_app; auto|]. rewrite app_nil_r in P.
  destruct IH as (ts' & F & R'); [intros; apply N; right; assumption|intros k c I; apply H; cbn [List.concat]; apply in_or_app; auto|].
  exists (t' :: ts'). split; [constructor; assumption|]. cbn [map List.concat len repeat SerModel.load_tables]. unfold SerModel.table_save at 1. rewrite <- app_assoc.
  apply (reads_bind (in_int size_t) (fun size ar1 => '(t', ar2) <- load_terms ss (Z.to_nat size) [] ar1 ;; '(ts'', ar3) <- load_tables ss (repeat [] (len ts)) ar2 ;; Ok (t' :: ts'', ar3)) _ _ (Z.of_nat (len t))); [apply reads_int, size_value, S|].
  rewrite Nat2Z.id. apply (reads_bind (load_terms ss (len t) []) (fun t' ar2 => '(ts'', ar3) <- load_tables ss (repeat [] (len ts)) ar2 ;; Ok (t' :: ts'', ar3)) _ _ t' _ R).
  rewrite <- (app_nil_r (List.concat _)). apply (reads_bind (load_tables ss (repeat [] (len ts))) (fun ts'' ar3 => Ok (t' :: ts'', ar3)) _ _ ts' _ R'). exact (reads_ret (t' :: ts')).
Qed.

Lemma terms_perm (x y : series) : Forall2 (@Permutation (K * C)) (s_tables x) (s_tables y) -> Permutation (terms x) (terms y).
Proof. unfold terms. induction 1; cbn [List.concat]; [constructor|]. apply Permutation_app; assumption. Qed.
Lemma same_series_wf (x y : series) : same_series x y -> WF y -> WF x.
Proof.
  intros (S1 & S2 & S3 & F) W. pose proof (terms_perm x y F) as P. destruct W as [A B D N V Z G M]. constructor.
  - rewrite S3. exact A.
  - rewrite S1. exact B.
  - rewrite S1, <- D. clear -F. induction F; cbn; congruence.
  - eapply Permutation_NoDup; [|exact N]. apply Permutation_map. symmetry. exact P.
  - intros k c I. rewrite S3. eapply V. eapply Permutation_in; [exact P|exact I].
  - intros k c I. eapply Z. eapply Permutation_in; [exact P|exact I].
  - intros i t k c E I. rewrite S1. assert (Q : exists t', nth_error (s_tables y) i = Some t' /\ Permutation t t').
    { clear -F E. revert i E. induction F as [|a b l l' PA F IH]; intros [|i] E; cbn in *; try discriminate; [injection E as ->; exists b; auto|auto]. }
    destruct Q as (t' & E' & P'). eapply G; [exact E'|]. eapply Permutation_in; eauto.
  - intros L t I. rewrite S1 in *. assert (Q : exists t', In t' (s_tables y) /\ len t = len t').
    { clear -F I. induction F as [|a b l l' PA F IH]; [destruct I|]. destruct I as [->|I]; [exists b; split; [left; reflexivity|apply Permutation_length; exact PA]|]. destruct (IH I) as (t' & J & E). exists t'. split; [right; exact J|exact E]. }
    destruct Q as (t' & J & ->). apply M; auto.
Qed.

(** The parts of s can be read back. *)
Definition parts_read (s : series) : Prop :=
  reads t_load (t_save (s_tag s)) (s_tag s) /\ forall k c, In (k, c) (terms s) -> reads k_load (k_save k) k /\ reads c_load (c_save c) c.

Lemma body_ok (s s1 : series) : WF s -> storable s -> parts_read s -> s_tables s1 = repeat [] (2 ^ s_log2 s) -> s_log2 s1 = s_log2 s ->
  exists r, same_series r s /\ reads (load_body KO CO PO k_load c_load t_load s1) (t_save (s_tag s) ++ ss_save (s_ss s) ++ List.concat (map table_save (s_tables s))) r.
Proof.
  intros W [S1 S2] [P1 P2] E1 E2. destruct (load_tables_ok (s_ss s) (s_tables s)) as (ts' & F & R).
  - intros t I. split; [apply S2; exact I|]. pose proof (wf_keys _ _ _ _ W) as N. unfold terms in N. apply in_split in I as (a & b & EQ). rewrite EQ, concat_app in N. cbn [List.concat] in N. rewrite !map_app in N.
    assert (Q : forall u v w : list K, NoDup (u ++ v ++ w) -> NoDup v). { clear. intros u v w H. induction u as [|x u IH]; [|cbn in H; apply NoDup_cons_iff in H as [_ H]; auto]. cbn in H. induction v as [|x v IH]; [constructor|]. cbn in H. apply NoDup_cons_iff in H as [A B]. constructor; [intros I; apply A, in_or_app; auto|auto]. }
    eapply Q. exact N.
  - exact P2.
  - exists (Series ts' (s_log2 s) (s_tag s) (s_ss s)). split; [split; [reflexivity|]; split; [reflexivity|]; split; [reflexivity|exact F]|].
    unfold load_body. rewrite E1, E2, <- (wf_tables _ _ _ _ W).
    apply (reads_bind t_load (fun tg ar1 => '(ss, ar2) <- ss_load ar1 ;; '(ts, ar3) <- load_tables ss (repeat [] (len (s_tables s))) ar2 ;; Ok (Series ts (s_log2 s) tg ss, ar3)) _ _ (s_tag s) _ P1).
    apply (reads_bind ss_load (fun ss ar2 => '(ts, ar3) <- load_tables ss (repeat [] (len (s_tables s))) ar2 ;; Ok (Series ts (s_log2 s) (s_tag s) ss, ar3)) _ _ (s_ss s)); [apply symbol_set_round_trip; exact S1|].
    rewrite <- (app_nil_r (List.concat _)). apply (reads_bind (load_tables (s_ss s) (repeat [] (len (s_tables s)))) (fun ts ar3 => Ok (Series ts (s_log2 s) (s_tag s) (s_ss s), ar3)) _ _ ts' _ R). exact (reads_ret (Series ts' (s_log2 s) (s_tag s) (s_ss s))).
Qed.

Lemma log2_value (s : series) : WF s -> has_value uint32 (Z.of_nat (s_log2 s)).
Proof. intros W. pose proof (wf_log2 _ _ _ _ W). unfold max_log2_size in *. apply in_ity_iff. apply andb_true_iff. rewrite !Z.leb_le. change (imin uint32) with 0. change (imax uint32) with 4294967295. lia. Qed.

(** The object after a failed load. *)
Definition is_cleared (r : series) : Prop := WF r /\ terms r = [] /\ s_tag r = tag_default TO /\ s_ss r = [].
Lemma cleared n l tg : (l <= max_log2_size)%nat -> n = (2 ^ l)%nat -> is_cleared (series_clear TO (Series (repeat [] n) l tg [])).
Proof.
  intros L ->. pose proof (set_n_segments_ok KO KS CO (Series [] 0 (tag_default TO) [] : series) l L ltac:(constructor)) as [_ W]. cbn [s_tag s_ss] in W. unfold series_clear. cbn [s_tables s_log2].
  assert (E : map (fun _ : table K C => []) (repeat [] (2 ^ l)) = repeat ([] : table K C) (2 ^ l)) by (generalize (2 ^ l)%nat as n; induction n as [|n IH]; [reflexivity|]; cbn; f_equal; exact IH).
  rewrite E. split; [exact W|]. split; [|split; reflexivity]. unfold terms. cbn [s_tables]. generalize (2 ^ l)%nat as n. induction n as [|n IH]; [reflexivity|]. cbn. exact IH.
Qed.
Lemma clear_cleared (x : series) : WF x -> is_cleared (series_clear TO x).
Proof.
  intros W. assert (E : series_clear TO x = series_clear TO (Series (repeat [] (len (s_tables x))) (s_log2 x) (s_tag x) [])).
  { unfold series_clear. cbn [s_tables s_log2]. f_equal. induction (s_tables x) as [|t l IH]; [reflexivity|]. cbn. f_equal. exact IH. }
  rewrite E. apply cleared; [apply (wf_log2 _ _ _ _ W)|apply (wf_tables _ _ _ _ W)].
Qed.

(** C47. Whatever the object x contained, loading what was saved from s gives a well-formed series equal to s but for the order of the terms within the segments, and reads exactly what was written. *)
Theorem series_round_trip : forall (s x : series) rest, WF s -> storable s -> parts_read s ->
  exists r, load x (save s ++ rest) = (Ok rest, r) /\ same_series r s /\ WF r.
Proof.
  intros s x rest W ST PR. unfold series_load. unfold series_save. rewrite <- app_assoc. destruct (reads_int uint32 _ (log2_value s W)) as [-> _]. cbn [bind]. rewrite Nat2Z.id.
  destruct (set_n_segments_ok KO KS CO (series_clear TO x) (s_log2 s) (wf_log2 _ _ _ _ W) ltac:(constructor)) as [-> _]. cbn [bind].
  destruct (body_ok s (Series (repeat [] (2 ^ s_log2 s)) (s_log2 s) (s_tag (series_clear TO x)) (s_ss (series_clear TO x))) W ST PR eq_refl eq_refl) as (r & SS & [-> _]).
  exists r. split; [reflexivity|]. split; [exact SS|]. eapply same_series_wf; eauto.
Qed.

(** C47. An archive cut anywhere is rejected, and the object is left empty (and usable), whatever it contained. *)
Theorem series_truncated_archive : forall (s x : series) p q, WF s -> storable s -> parts_read s -> WF x -> save s = p ++ q -> q <> [] ->
  exists r, load x p = (Throw archive_exception, r) /\ is_cleared r.
Proof.
  intros s x p q W ST PR WX E N. unfold series_load. unfold series_save in E. destruct (app_split _ _ _ _ E) as [(q' & E' & N')|(p' & -> & E')].
  - destruct (reads_int uint32 _ (log2_value s W)) as [_ H]. rewrite (H p q' E' N'). cbn [bind]. eexists. split; [reflexivity|]. apply clear_cleared. destruct (clear_cleared x WX) as [H' _]. exact H'.
  - destruct (reads_int uint32 _ (log2_value s W)) as [-> _]. cbn [bind]. rewrite Nat2Z.id. destruct (set_n_segments_ok KO KS CO (series_clear TO x) (s_log2 s) (wf_log2 _ _ _ _ W) ltac:(constructor)) as [-> _]. cbn [bind].
    destruct (body_ok s (Series (repeat [] (2 ^ s_log2 s)) (s_log2 s) (s_tag (series_clear TO x)) (s_ss (series_clear TO x))) W ST PR eq_refl eq_refl) as (r & _ & [_ H]).
    rewrite (H p' q E' N). eexists. split; [reflexivity|]. apply (cleared _ (s_log2 s) _ (wf_log2 _ _ _ _ W) eq_refl).
Qed.
(** C47. A number of segments that is too large is rejected. *)
Theorem series_bad_segments : forall (x : series) l rest, WF x -> has_value uint32 l -> Z.of_nat max_log2_size < l -> exists r, load x (out_int l ++ rest) = (Throw invalid_argument, r) /\ is_cleared r.
Proof.
  intros x l rest WX H L. unfold series_load. destruct (reads_int uint32 l H) as [-> _]. cbn [bind]. unfold set_n_segments. assert ((max_log2_size <? Z.to_nat l)%nat = true) as -> by (apply Nat.ltb_lt; lia). cbn [bind].
  eexists. split; [reflexivity|]. apply clear_cleared. destruct (clear_cleared x WX) as [H' _]. exact H'.
Qed.
End Ser.
Print Assumptions symbol_set_round_trip.
Print Assumptions pm_round_trip.
Print Assumptions dpm_round_trip.
Print Assumptions trunc_round_trip.
Print Assumptions trunc_bad_index.
Print Assumptions series_round_trip.
Print Assumptions series_truncated_archive.
Print Assumptions series_bad_segments.
