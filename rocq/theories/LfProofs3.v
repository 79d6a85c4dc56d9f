(** Multiplication without any law of the coefficients: which products are accumulated, operands over the same symbols. *)
From Coq Require Import ZArith List Bool String Arith Lia Permutation Sorted.
From Verif Require Import Base SymSpec SymModel PMonSpec KeyOps SeriesModel SeriesModel2 SeriesSpec PolyModel PolySpec PolyProofs PolyProofs2 PolyProofs3 PolyProofs4 SeriesProofs SeriesProofs2 SeriesProofs5
  PolyProofs5 PolyProofs6 PolyConc P_PolyConc LfSpec LfProofs.
Import ListNotations.
Open Scope Z_scope.
Open Scope res_scope.
Local Notation len := List.length.

Section S.
Context {K C Tag : Type} (KO : key_ops K) (KS : key_sem K) (CO : cf_ops C) (PO : tbl_policy (K * C)) (TO : tag_ops Tag) (E : mul_env K C Tag).
Hypothesis KL : key_laws KO KS.
Hypothesis LL : light_laws CO.
Hypothesis EO : env_ok KO KS E.
Notation term := (K * C)%type.
Notation series := (series K C Tag).
Notation tget := (tget KO).
Notation LWF := (lwf KO KS CO).

Definition cpair (p : term * term) : C * C := (snd (fst p), snd (snd p)).
Definition step (o : option C) (p : term * term) : option C :=
  Some match o with None => c_mul CO (snd (fst p)) (snd (snd p)) | Some c => c_fma CO c (snd (fst p)) (snd (snd p)) end.
Lemma fold_step l : fold_left step l None = accumulated CO (map cpair l).
Proof.
  destruct l as [|p l]; [reflexivity|]. cbn [fold_left map accumulated cpair fst snd]. unfold step at 2. generalize (c_mul CO (snd (fst p)) (snd (snd p))) as c.
  induction l as [|q l IH]; intros c; [reflexivity|]. cbn [fold_left map fst snd cpair]. apply IH.
Qed.

Section Acc.
Variable ss : symbol_set.
Notation pair_ok := (pair_ok KS ss).
Notation pkey p := (fst (pterm KO CO ss p)).
Definition at_key (k : K) (p : term * term) : bool := k_eqb KO k (pkey p).

Lemma accumulate_lf (tab : table K C) p : pair_ok p -> NoDup (map fst tab) ->
  exists tab', accumulate KO CO PO ss tab p = Ok tab' /\ NoDup (map fst tab') /\ (forall k, tget tab' k = if at_key k p then step (tget tab k) p else tget tab k) /\
    (forall k, In k (map fst tab') -> In k (map fst tab) \/ k = pkey p) /\ (len tab' <= S (len tab))%nat.
Proof.
  intros OK N. destruct (pterm_ok KO KS CO KL ss p OK) as (EK & _). unfold at_key. destruct p as [[k1 c1] [k2 c2]]. cbn [fst snd] in EK. unfold accumulate. rewrite EK. cbn [bind].
  set (k := pkey ((k1, c1), (k2, c2))) in *. unfold tbl_try_emplace. destruct (tbl_find KO tab k) as [e|] eqn:F.
  - eexists. split; [reflexivity|]. rewrite fst_update. split; [exact N|]. split; [|split; [auto|rewrite (update_len KO); lia]].
    intros x. rewrite (tget_update KO KS KL). destruct (k_eqb KO x k) eqn:EX; [|reflexivity]. apply (kl_eqb _ _ KL) in EX. subst x. unfold LfProofs.tget. rewrite F. reflexivity.
  - assert (G : tget tab k = None) by (unfold LfProofs.tget; rewrite F; reflexivity). apply (find_none KO KS KL) in F. eexists. split; [reflexivity|].
    pose proof (reorder_perm PO ((k, c_mul CO c1 c2) :: tab)) as RP.
    assert (N' : NoDup (map fst ((k, c_mul CO c1 c2) :: tab))) by (cbn [map fst]; constructor; auto).
    split; [eapply Permutation_NoDup; [apply Permutation_map, Permutation_sym, RP|exact N']|]. split; [|split].
    + intros x. rewrite <- (tget_perm KO KS KL _ _ x N' (Permutation_sym RP)). rewrite (tget_cons KO KS KL). destruct (k_eqb KO x k) eqn:EX; [|reflexivity]. apply (kl_eqb _ _ KL) in EX. subst x. rewrite G. reflexivity.
    + intros q I. apply (Permutation_in _ (Permutation_map fst RP)) in I. cbn [map fst] in I. destruct I; auto.
    + rewrite (Permutation_length RP). cbn. lia.
Qed.

Lemma accumulate_all_lf pairs : (forall p, In p pairs -> pair_ok p) -> forall tab, NoDup (map fst tab) ->
  exists tab', rfold (accumulate KO CO PO ss) pairs tab = Ok tab' /\ NoDup (map fst tab') /\ (forall k, tget tab' k = fold_left step (filter (at_key k) pairs) (tget tab k)) /\
    (forall k, In k (map fst tab') -> In k (map fst tab) \/ exists p, In p pairs /\ k = pkey p) /\ (len tab' <= len tab + len pairs)%nat.
Proof.
  induction pairs as [|p pairs IH]; intros OK tab N.
  - exists tab. split; [reflexivity|]. split; [exact N|]. split; [reflexivity|]. split; [auto|cbn; lia].
  - cbn [rfold]. destruct (accumulate_lf tab p (OK p (or_introl eq_refl)) N) as (t1 & -> & N1 & G1 & K1 & L1). cbn [bind].
    destruct (IH (fun q I => OK q (or_intror I)) t1 N1) as (t2 & -> & N2 & G2 & K2 & L2). exists t2. split; [reflexivity|]. split; [exact N2|]. split; [|split].
    + intros k. rewrite G2, G1. cbn [filter]. destruct (at_key k p); reflexivity.
    + intros k I. destruct (K2 k I) as [J|(q & J & ->)]; [|right; exists q; split; [right; exact J|reflexivity]]. destruct (K1 k J) as [J1|J1]; [left; exact J1|]. subst k. right. exists p. split; [left; reflexivity|reflexivity].
    + cbn [List.length]. lia.
Qed.

Lemma erase_lf (tab : table K C) k : NoDup (map fst tab) -> tget (erase_zeros CO tab) k = match tget tab k with Some c => nonzero CO c | None => None end.
Proof.
  intros N. assert (N' : NoDup (map fst (erase_zeros CO tab))) by (apply filter_nodup; exact N). apply opt_ext. intros c. rewrite (tget_in KO KS KL _ k c N'). unfold erase_zeros. rewrite filter_In. cbn [snd].
  rewrite <- (tget_in KO KS KL tab k c N). split.
  - intros [G Z0]. rewrite G. unfold nonzero. destruct (c_is_zero CO c); [discriminate|reflexivity].
  - destruct (tget tab k) as [d|]; [|discriminate]. unfold nonzero. destruct (c_is_zero CO d) eqn:Zd; [discriminate|]. intros [= ->]. rewrite Zd. auto.
Qed.

Lemma task_lf pairs : (forall p, In p pairs -> pair_ok p) ->
  exists tab, rfold (accumulate KO CO PO ss) pairs [] = Ok tab /\ let t := erase_zeros CO tab in
    NoDup (map fst t) /\ (forall k c, In (k, c) t -> c_is_zero CO c = false /\ exists p, In p pairs /\ k = pkey p) /\
    (forall k, tget t k = accumulated_nonzero CO (map cpair (filter (at_key k) pairs))) /\ (len t <= len pairs)%nat.
Proof.
  intros OK. destruct (accumulate_all_lf pairs OK [] (NoDup_nil _)) as (tab & ER & N & G & Kk & L). exists tab. split; [exact ER|]. cbn zeta. split; [|split; [|split]].
  - apply filter_nodup. exact N.
  - intros k c I. unfold erase_zeros in I. apply filter_In in I as [I Z0]. cbn [snd] in Z0. split; [destruct (c_is_zero CO c); [discriminate|reflexivity]|].
    destruct (Kk k) as [[]|X]; [apply in_map_iff; exists (k, c); auto|exact X].
  - intros k. rewrite erase_lf by exact N. rewrite G. change (tget [] k) with (@None C). rewrite fold_step. reflexivity.
  - unfold erase_zeros. etransitivity; [apply filter_len|]. cbn in L. exact L.
Qed.
End Acc.

Section Same.
Variables (sel : string -> bool) (lim : Z) (t : option (trunc K)) (u : symbol_set).
Hypothesis TE : match t with None => True | Some t => trunc_exact KS sel lim u t end.
Notation D := (D KS sel u).
Notation kp := (keep D lim t).
Notation pair_ok := (pair_ok KS u).
Notation pterm := (pterm KO CO u).
Notation valid := (ks_valid KS (len u)).
Notation all_valid := (all_valid KS u).
Notation all_pairs := (all_pairs KS u).
Notation bad_degree := (bad_degree KS sel t u).
Notation start := (Series [[]] 0 (tag_default TO) u : series).

(** The coefficient of a monomial is accumulated, in some order, from the products kept. *)
Definition product_lf (v1 v2 r : list term) : Prop :=
  forall k, exists l, Permutation l (filter (at_key u k) (filter kp (list_prod v1 v2))) /\ tget r k = accumulated_nonzero CO (map cpair l).

Definition done_lf (x y : series) (r : series) : Prop :=
  LWF r /\ s_ss r = u /\ s_tag r = tag_default TO /\ all_pairs (terms x) (terms y) /\ product_lf (terms x) (terms y) (terms r) /\ (len (terms r) <= len (terms x) * len (terms y))%nat.

Lemma one_table_lf tg (tab : list term) : sorted_set u -> NoDup (map fst tab) -> (forall k c, In (k, c) tab -> c_is_zero CO c = false /\ valid k) -> LWF (Series [tab] 0 tg u : series).
Proof.
  intros SU N H. split.
  - apply one_table_wf; auto. intros k c I. destruct (H k c I) as [A B]. split; [apply (nz_zero CO LL); exact A|exact B].
  - intros k c I. unfold terms in I. cbn in I. rewrite app_nil_r in I. apply (H k c I).
Qed.

Lemma simple_lf (x y : series) : sorted_set u -> all_valid (terms x) -> all_valid (terms y) -> terms x <> [] -> terms y <> [] ->
  (exists r, poly_mul_simple KO CO PO E t start x y = Ok r /\ done_lf x y r) \/
  (poly_mul_simple KO CO PO E t start x y = Throw overflow_error /\ (~ all_pairs (terms x) (terms y) \/ bad_degree (terms x) (terms y))).
Proof.
  intros SU V1 V2 NX NY. unfold poly_mul_simple. cbn [s_ss s_tables rd nth_error].
  destruct (check_ok KO KS E KL EO u _ _ V1 V2) as [[-> A]|[-> NA]]; cbn [bind]; [|right; split; [reflexivity|left; exact NA]].
  assert (G : forall l, Permutation l (filter kp (list_prod (terms x) (terms y))) -> exists r, (tab' <- rfold (accumulate KO CO PO u) l [] ;; Ok (put_table start 0 (erase_zeros CO tab'))) = Ok r /\ done_lf x y r).
  { intros l PL. assert (OKL : forall p, In p l -> pair_ok p). { apply (sub_pairs_ok KS u (terms x) (terms y)); auto. intros p I. apply (Permutation_in _ PL) in I. apply filter_In in I as [I _]. exact I. }
    destruct (task_lf u l OKL) as (tab & -> & N & Hk & P & L). cbn [bind]. eexists. split; [reflexivity|]. unfold done_lf, put_table, set_tables. cbn [s_tables firstn skipn app s_log2 s_tag s_ss].
    assert (TT : forall tb, terms (Series [tb] 0 (tag_default TO) u : series) = tb) by (intros; unfold terms; cbn; apply app_nil_r). rewrite TT.
    split; [|split; [reflexivity|split; [reflexivity|split; [exact A|split]]]].
    - apply one_table_lf; auto. intros k c I. destruct (Hk k c I) as (Nz & p & Ip & ->). split; [exact Nz|]. apply (pterm_ok KO KS CO KL u p). apply OKL, Ip.
    - intros k. exists (filter (at_key u k) l). split; [apply filter_perm; exact PL|]. apply P.
    - rewrite (Permutation_length PL) in L. pose proof (filter_prod_len KS sel lim t u (terms x) (terms y)). lia. }
  assert (HT : (exists t0, t = Some t0) \/ t = None) by (destruct t; eauto). destruct HT as [(t0 & Ht)|Ht]; idtac.
  - rewrite Ht. destruct (deg_vec_bad KO KS KL sel lim t u TE t0 Ht _ V1) as [D1|[EB B]].
    2: { right. unfold degree_sorted. rewrite EB. cbn [bind]. split; [reflexivity|]. right. split; [congruence|]. destruct B as (e & I & B). exists e. auto. }
    destruct (degree_sorted_ok E (eo_perm _ _ _ EO) (eo_sorted _ _ _ EO) D t0 u _ NX (deg_vec KS sel lim t u TE t0 Ht _ V1 D1)) as (v1 & -> & P1 & S1). cbn [bind].
    destruct (deg_vec_bad KO KS KL sel lim t u TE t0 Ht _ V2) as [D2|[EB B]].
    2: { right. unfold degree_sorted. rewrite EB. cbn [bind]. split; [reflexivity|]. right. split; [congruence|]. destruct B as (e & I & B). exists e. auto. }
    destruct (degree_sorted_ok E (eo_perm _ _ _ EO) (eo_sorted _ _ _ EO) D t0 u _ NY (deg_vec KS sel lim t u TE t0 Ht _ V2 D2)) as (v2 & -> & P2 & S2). cbn [bind].
    assert (OV : over_ok D lim t0 v1 v2) by (apply (over KS sel lim t u TE t0 Ht); [eapply perm_all_valid|eapply perm_all_valid|eapply perm_all_pairs|eapply perm_deg_ok|eapply perm_deg_ok]; eauto).
    rewrite (simple_pairs_some D lim t0 v1 v2) by auto. cbn [bind].
    left. apply G. rewrite Ht. apply filter_perm. apply list_prod_perm; auto.
  - rewrite Ht, simple_pairs_none. cbn [bind]. left. apply G. rewrite Ht. unfold keep. assert (X : forall l : list (term * term), filter (fun _ => true) l = l) by (induction l as [|z l IH]; cbn; congruence). rewrite X. reflexivity.
Qed.

(** The segment of a key holds all its products. *)
Lemma filter_segment k (tk : nat -> list (term * term)) n s : (s < n)%nat -> (forall s' p, (s' < n)%nat -> In p (tk s') -> at_key u k p = true -> s' = s) ->
  filter (at_key u k) (List.concat (map tk (seq 0 n))) = filter (at_key u k) (tk s).
Proof.
  intros L H. assert (NIL : forall s', (s' < n)%nat -> s' <> s -> filter (at_key u k) (tk s') = []).
  { intros s' L' N. destruct (filter (at_key u k) (tk s')) as [|p l] eqn:EF; [reflexivity|]. exfalso. apply N. assert (I : In p (filter (at_key u k) (tk s'))) by (rewrite EF; left; reflexivity).
    apply filter_In in I as [I A]. exact (H s' p L' I A). }
  assert (Z0 : forall a m, (forall i, (a <= i < a + m)%nat -> (i < n)%nat /\ i <> s) -> filter (at_key u k) (List.concat (map tk (seq a m))) = []).
  { intros a m. revert a. induction m as [|m IH]; intros a Hn; [reflexivity|]. cbn [seq map List.concat]. rewrite filter_app. destruct (Hn a ltac:(lia)) as [L' N']. rewrite (NIL a L' N'), IH; [reflexivity|]. intros i Hi. apply Hn. lia. }
  replace n with (s + (1 + (n - s - 1)))%nat by lia. rewrite seq_app, map_app, concat_app, filter_app, seq_app, map_app, concat_app, filter_app. rewrite (Z0 0%nat s), (Z0 (0 + s + 1)%nat).
  - cbn [app seq map List.concat Nat.add]. rewrite !app_nil_r. reflexivity.
  - intros i Hi. lia.
  - intros i Hi. lia.
Qed.
Lemma tget_segment (tabs : list (table K C)) k s tab : nth_error tabs s = Some tab -> (forall s' tb, nth_error tabs s' = Some tb -> s' <> s -> tget tb k = None) -> tget (List.concat tabs) k = tget tab k.
Proof.
  revert s. induction tabs as [|tb tabs IH]; intros s Hs H; [destruct s; discriminate|]. cbn [List.concat]. rewrite (tget_app KO KS KL). destruct s as [|s]; cbn in Hs.
  - inversion Hs; subst tb. destruct (tget tab k) eqn:G; [reflexivity|]. clear IH Hs. assert (A : forall tb, In tb tabs -> tget tb k = None). { intros tb I. apply In_nth_error in I as (j & J). apply (H (S j) tb J). discriminate. }
    clear H. induction tabs as [|tb tabs IH]; [reflexivity|]. cbn [List.concat]. rewrite (tget_app KO KS KL), (A tb (or_introl eq_refl)). apply IH. intros q I. apply A. right. exact I.
  - rewrite (H 0%nat tb eq_refl ltac:(discriminate)). apply (IH s Hs). intros s' tb' J N. apply (H (S s') tb' J). congruence.
Qed.

Lemma mt_lf (x y : series) : sorted_set u -> all_valid (terms x) -> all_valid (terms y) -> terms x <> [] -> terms y <> [] ->
  (exists r, poly_mul_mt KO CO PO E t start x y = Ok r /\ done_lf x y r) \/
  (poly_mul_mt KO CO PO E t start x y = Throw overflow_error /\
    (~ all_pairs (terms x) (terms y) \/ bad_degree (terms x) (terms y) \/ exists lg, (lg <= max_log2_size)%nat /\ max_table_size lg < Z.of_nat (len (terms x) * len (terms y)))).
Proof.
  intros SU V1 V2 NX NY. rewrite mt_of_prelude.
  destruct (prelude_ok KO KS CO TO E KL EO sel lim t u TE x y SU V1 V2 NX NY) as [[-> B]|[(-> & F & A)|(rv & log2 & tasks & tk & -> & Erv & Llog & TK & A & TP & HP)]]; cbn [bind].
  - right. split; [reflexivity|]. tauto.
  - left. eexists. split; [reflexivity|]. split; [apply one_table_lf; auto; [constructor|intros k c []]|]. split; [reflexivity|]. split; [reflexivity|]. split; [exact A|]. split; [|cbn; lia].
    intros k. exists []. split; [rewrite F; constructor|reflexivity].
  - set (nsegs := (2 ^ log2)%nat) in *. rewrite Erv. cbn [s_tables s_ss].
    set (F := fun s => ps <- tasks s ;; tab <- rd (repeat [] nsegs) s ;; segment_task KO CO PO u log2 ps tab).
    assert (FS : forall s, (s < nsegs)%nat -> F s = segment_task KO CO PO u log2 (tk s) []).
    { intros s Hs. unfold F. rewrite (TK s Hs). cbn [bind]. assert (R : rd (repeat [] nsegs) s = Ok (@nil term)) by (apply rd_some; apply nth_error_repeat; exact Hs). rewrite R. reflexivity. }
    assert (STEP : forall s, (s < nsegs)%nat -> exists tab, rfold (accumulate KO CO PO u) (tk s) [] = Ok tab /\ let tb := erase_zeros CO tab in
      NoDup (map fst tb) /\ (forall k c, In (k, c) tb -> c_is_zero CO c = false /\ exists p, In p (tk s) /\ k = fst (pterm p)) /\
      (forall k, tget tb k = accumulated_nonzero CO (map cpair (filter (at_key u k) (tk s)))) /\ (len tb <= len (tk s))%nat).
    { intros s Hs. apply (task_lf u). intros p Ip. apply (HP s p Hs Ip). }
    assert (LEN : forall s, (s < nsegs)%nat -> (len (tk s) <= len (terms x) * len (terms y))%nat).
    { intros s Hs. transitivity (len (List.concat (map tk (seq 0 nsegs)))); [apply len_concat_in, in_map, in_seq; lia|]. rewrite (Permutation_length TP). apply filter_prod_len. }
    destruct (rmap_spec F (seq 0 nsegs)) as [(tabs & ET & F2)|(l1 & s & l2 & Es & _ & BAD)].
    + left. fold F. rewrite ET. cbn [bind]. eexists. split; [reflexivity|]. unfold set_tables, done_lf. cbn [s_log2 s_tag s_ss].
      assert (F3 : Forall2 (fun s tab => NoDup (map fst tab) /\ (forall k c, In (k, c) tab -> c_is_zero CO c = false /\ exists p, In p (tk s) /\ k = fst (pterm p)) /\
        (forall k, tget tab k = accumulated_nonzero CO (map cpair (filter (at_key u k) (tk s)))) /\ (len tab <= len (tk s))%nat /\ Z.of_nat (len tab) <= max_table_size log2) (seq 0 nsegs) tabs).
      { eapply forall2_impl; [|exact F2]. intros s tab Is Ef. apply in_seq in Is. cbn beta in Ef. change (F s = Ok tab) in Ef. rewrite FS in Ef by lia. destruct (STEP s ltac:(lia)) as (tb & Er & Q1 & Q2 & Q3 & Q4). unfold segment_task in Ef. rewrite Er in Ef. cbn [bind] in Ef.
        destruct (Z.ltb_spec (max_table_size log2) (Z.of_nat (len (erase_zeros CO tb)))); [discriminate|]. inversion Ef. subst tab. auto. }
      assert (NTH : forall i tb, nth_error tabs i = Some tb -> (i < nsegs)%nat /\ NoDup (map fst tb) /\ (forall k c, In (k, c) tb -> c_is_zero CO c = false /\ exists p, In p (tk i) /\ k = fst (pterm p)) /\
        (forall k, tget tb k = accumulated_nonzero CO (map cpair (filter (at_key u k) (tk i)))) /\ (len tb <= len (tk i))%nat /\ Z.of_nat (len tb) <= max_table_size log2).
      { intros i tb Ei. destruct (forall2_nth _ _ _ F3 i tb Ei) as (s & Hs & H).
        assert (Li : (i < nsegs)%nat) by (rewrite <- (seq_length nsegs 0); apply nth_error_Some; congruence).
        assert (s = i). { apply (nth_error_nth _ _ 0%nat) in Hs. rewrite seq_nth in Hs by exact Li. lia. } subst s. split; [exact Li|exact H]. }
      assert (LT : len tabs = nsegs) by (rewrite <- (Forall2_length _ _ _ F2); apply seq_length).
      split; [|split; [reflexivity|split; [reflexivity|split; [exact A|split]]]].
      * split.
        { apply wf_iff. split; [exact SU|]. split; [exact Llog|]. split; [cbn [s_tables s_log2]; exact LT|]. cbn [s_tables s_log2 s_ss]. intros i tb Ei.
          destruct (NTH i tb Ei) as (Li & N & Hk & _ & _ & M).
          split; [exact N|]. split; [|intros _; exact M]. intros k c I. destruct (Hk k c I) as (Nz & p & Ip & ->). destruct (HP i p Li Ip) as (_ & PO' & SP).
          split; [apply (pterm_ok KO KS CO KL u p PO')|]. split; [apply (nz_zero CO LL); exact Nz|].
          unfold seg_of in SP. rewrite <- SP, Z2Nat.id; [reflexivity|]. apply Z.mod_pos_bound. apply Z.pow_pos_nonneg; lia. }
        { intros k c I. unfold terms in I. cbn [s_tables] in I. apply in_concat in I as (tb & J & I). apply In_nth_error in J as (i & J). destruct (NTH i tb J) as (_ & _ & Hk & _). apply (Hk k c I). }
      * intros k. set (s := Z.to_nat (k_hash KO k mod 2 ^ Z.of_nat log2)).
        assert (Ls : (s < nsegs)%nat). { unfold s, nsegs. apply Nat2Z.inj_lt. rewrite pow2_Z, Z2Nat.id by (apply Z.mod_pos_bound, Z.pow_pos_nonneg; lia). apply Z.mod_pos_bound, Z.pow_pos_nonneg; lia. }
        assert (ONE : forall s' p, (s' < nsegs)%nat -> In p (tk s') -> at_key u k p = true -> s' = s).
        { intros s' p L' Ip AK. apply (kl_eqb _ _ KL) in AK. destruct (HP s' p L' Ip) as (_ & _ & SP). rewrite <- SP. unfold seg_of, s. rewrite AK. reflexivity. }
        exists (filter (at_key u k) (tk s)). split; [rewrite <- (filter_segment k tk nsegs s Ls ONE); apply filter_perm; exact TP|].
        destruct (nth_error tabs s) as [tab|] eqn:Hs; [|apply nth_error_None in Hs; lia]. destruct (NTH s tab Hs) as (_ & _ & _ & G & _).
        unfold terms. cbn [s_tables]. rewrite (tget_segment tabs k s tab Hs); [apply G|]. intros s' tb Hs' N. destruct (NTH s' tb Hs') as (L' & _ & _ & G' & _). rewrite G'.
        destruct (filter (at_key u k) (tk s')) as [|p l] eqn:EF; [reflexivity|]. exfalso. apply N. assert (I : In p (filter (at_key u k) (tk s'))) by (rewrite EF; left; reflexivity). apply filter_In in I as [I AK]. exact (ONE s' p L' I AK).
      * unfold terms. cbn [s_tables]. etransitivity; [apply (len_tables tk (seq 0 nsegs)); eapply forall2_impl; [|exact F3]; intros s tab _ H; apply H|]. rewrite (Permutation_length TP). apply filter_prod_len.
    + right. assert (Hs : (s < nsegs)%nat). { assert (X : In s (seq 0 nsegs)) by (rewrite Es; apply in_or_app; right; left; reflexivity). apply in_seq in X. lia. }
      destruct (STEP s Hs) as (tb & Er & _ & _ & _ & Q4). rewrite FS in BAD by exact Hs. unfold segment_task in BAD. rewrite Er in BAD. cbn [bind] in BAD.
      destruct (Z.ltb_spec (max_table_size log2) (Z.of_nat (len (erase_zeros CO tb)))) as [L|L]; [|destruct BAD as [(e & B & _)|[B _]]; discriminate].
      destruct BAD as [(e & B & EB)|[B _]]; [|discriminate]. inversion B; subst e. fold F. rewrite EB. cbn [bind]. split; [reflexivity|]. right. right. exists log2. split; [exact Llog|]. specialize (LEN s Hs). lia.
Qed.

Lemma mul_same_lf (x y : series) : wf KO KS CO x -> wf KO KS CO y -> s_ss x = u -> s_ss y = u ->
  (exists r, poly_mul_identical_ss KO CO PO TO E t x y = Ok r /\ done_lf x y r) \/
  (poly_mul_identical_ss KO CO PO TO E t x y = Throw overflow_error /\
    (~ all_pairs (terms x) (terms y) \/ bad_degree (terms x) (terms y) \/ exists lg, (lg <= max_log2_size)%nat /\ max_table_size lg < Z.of_nat (len (terms x) * len (terms y)))).
Proof.
  intros WX WY SX SY. unfold poly_mul_identical_ss. unfold set_symbol_set, series_default, series_empty at 1. cbn [s_tables forallb bind andb s_log2 s_tag]. rewrite SX.
  assert (SU : sorted_set u) by (rewrite <- SX; apply (wf_ss _ _ _ _ WX)).
  assert (V1 : all_valid (terms x)). { intros [k c] I. rewrite <- SX. eapply (wf_valid _ _ _ _ WX); eauto. }
  assert (V2 : all_valid (terms y)). { intros [k c] I. rewrite <- SY. eapply (wf_valid _ _ _ _ WY); eauto. }
  destruct (series_empty x || series_empty y) eqn:EE.
  - left. eexists. split; [reflexivity|]. assert (X : terms x = [] \/ terms y = []) by (apply orb_true_iff in EE as [EE|EE]; apply empty_terms in EE; auto).
    split; [apply one_table_lf; auto; [constructor|intros k c []]|]. split; [reflexivity|]. split; [reflexivity|]. split; [intros a b Ia Ib; destruct X as [X|X]; rewrite X in *; contradiction|]. split; [|cbn; lia].
    intros k. exists []. split; [|reflexivity]. destruct X as [X|X]; rewrite X; rewrite ?list_prod_nil_r; constructor.
  - apply orb_false_iff in EE as [E1 E2].
    assert (NX : terms x <> []) by (intros X; apply empty_terms in X; congruence). assert (NY : terms y <> []) by (intros X; apply empty_terms in X; congruence).
    destruct (me_mt E x y).
    + apply mt_lf; auto.
    + destruct (simple_lf x y SU V1 V2 NX NY) as [H|[H1 H2]]; [left; exact H|right; split; [exact H1|]]. destruct H2; auto.
Qed.
End Same.
End S.
