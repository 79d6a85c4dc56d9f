(** The product of two series over the same symbols. *)
From Coq Require Import ZArith List Bool String Arith Lia Permutation Sorted Ring Ring_theory.
From Verif Require Import Base SymSpec SymModel PMonSpec KeyOps SeriesModel SeriesSpec PolyModel PolySpec PolyConc PolyProofs PolyProofs2 PolyProofs3 PolyProofs4 SeriesProofs SeriesProofs2 SeriesProofs5 PolyProofs5.
Import ListNotations.
Open Scope Z_scope.
Notation len := List.length.

Section Same.
Context {K C Tag : Type} (KO : key_ops K) (KS : key_sem K) (CO : cf_ops C) (PO : tbl_policy (K * C)) (TO : tag_ops Tag) (E : mul_env K C Tag).
Hypothesis KL : key_laws KO KS.
Hypothesis CL : cf_laws CO.
Hypothesis EO : env_ok KO KS E.
Notation term := (K * C)%type.
Notation series := (series K C Tag).
Variable sel : string -> bool.
Variable lim : Z.
Variable t : option (trunc K).
Variable u : symbol_set.
Hypothesis TE : match t with None => True | Some t => trunc_exact KS sel lim u t end.
Notation n := (len u).
Notation exps := (ks_exps KS n).
Notation valid := (ks_valid KS n).
Definition D (e : term) : Z := degree_of sel u (exps (fst e)).
Notation kp := (keep D lim t).
Notation pair_ok := (pair_ok KS u).
Notation pterm := (pterm KO CO u).

Definition all_valid (v : list term) : Prop := forall e, In e v -> valid (fst e).
Definition all_pairs (v1 v2 : list term) : Prop :=
  forall a b, In a v1 -> In b v2 -> ks_fits KS (vadd (exps (fst a)) (exps (fst b))) /\ ks_total_ok KS (vsum (exps (fst a)) + vsum (exps (fst b))).
Definition deg_ok (v : list term) : Prop := forall e, In e v -> ks_deg_fits KS (selected sel u (exps (fst e))).

Lemma check_ok v1 v2 : all_valid v1 -> all_valid v2 ->
  (check_overflow E u v1 v2 = Ok tt /\ all_pairs v1 v2) \/
  (check_overflow E u v1 v2 = Throw overflow_error /\ ~ all_pairs v1 v2).
Proof.
  intros V1 V2. unfold check_overflow.
  assert (F1 : Forall valid (map fst v1)) by (apply Forall_forall; intros k I; apply in_map_iff in I as (e & <- & I); apply V1, I).
  assert (F2 : Forall valid (map fst v2)) by (apply Forall_forall; intros k I; apply in_map_iff in I as (e & <- & I); apply V2, I).
  destruct (kl_check _ _ KL true u _ _ F1 F2) as [_ H]. destruct (H _ (eo_check _ _ _ EO u _ _ F1 F2)) as (b & -> & B). cbn [bind].
  assert (X : b = true <-> all_pairs v1 v2).
  { rewrite B. unfold all_pairs. split; intros Q.
    - intros a c Ia Ic. apply Q; apply in_map; assumption.
    - intros p q Ip Iq. apply in_map_iff in Ip as (a & <- & Ia), Iq as (c & <- & Ic). apply Q; assumption. }
  destruct b; [left|right]; split; auto; [apply X; reflexivity|]. intros Q. apply X in Q. discriminate.
Qed.

Lemma all_pairs_ok v1 v2 p : all_valid v1 -> all_valid v2 -> all_pairs v1 v2 -> In p (list_prod v1 v2) -> pair_ok p.
Proof. intros V1 V2 A I. destruct p as [a b]. apply in_prod_iff in I as [Ia Ib]. split; [apply V1, Ia|]. split; [apply V2, Ib|]. apply A; auto. Qed.

Lemma perm_all_valid v v' : Permutation v' v -> all_valid v -> all_valid v'.
Proof. intros P A e I. apply A. eapply Permutation_in; eauto. Qed.
Lemma perm_all_pairs v v' w w' : Permutation v' v -> Permutation w' w -> all_pairs v w -> all_pairs v' w'.
Proof. intros P Q A a b Ia Ib. apply A; eapply Permutation_in; eauto. Qed.
Lemma perm_deg_ok v v' : Permutation v' v -> deg_ok v -> deg_ok v'.
Proof. intros P A e I. apply A. eapply Permutation_in; eauto. Qed.

Section Trunc.
Variable tt0 : trunc K.
Hypothesis Ht : t = Some tt0.
Lemma TX : trunc_exact KS sel lim u tt0.
Proof. rewrite Ht in TE. exact TE. Qed.

Lemma deg_vec v : all_valid v -> deg_ok v -> forall e, In e v -> tr_deg tt0 (fst e) u = Ok (D e).
Proof. intros V G e I. apply (te_deg _ _ _ _ _ TX _ (V e I)). apply G, I. Qed.

Lemma deg_vec_bad v : all_valid v -> deg_ok v \/ (degree_vector tt0 u v = Throw overflow_error /\ exists e, In e v /\ ~ ks_deg_fits KS (selected sel u (exps (fst e)))).
Proof.
  intros V. destruct (first_bad (fun e : term => ks_deg_fits KS (selected sel u (exps (fst e)))) (fun e => kl_deg_dec _ _ KL _) v) as [G|(l1 & a & l2 & -> & G & B)]; [left; exact G|right].
  split; [|exists a; split; [apply in_or_app; right; left; reflexivity|exact B]]. unfold degree_vector.
  assert (X : forall l1, (forall b, In b l1 -> ks_deg_fits KS (selected sel u (exps (fst b))) /\ valid (fst b)) -> valid (fst a) -> rmap (fun e => tr_deg tt0 (fst e) u) (l1 ++ a :: l2) = Throw overflow_error).
  { clear - TE B Ht. induction l1 as [|b l1 IH]; intros H Va; cbn [app rmap].
    - rewrite (proj2 (te_deg _ _ _ _ _ TX _ Va) B). reflexivity.
    - destruct (H b (or_introl eq_refl)) as [Hb Vb]. rewrite (proj1 (te_deg _ _ _ _ _ TX _ Vb) Hb). cbn [bind]. rewrite IH; auto. intros c I. apply H. right. exact I. }
  apply X; [|apply V, in_or_app; right; left; reflexivity]. intros b I. split; [apply G, I|]. apply V, in_or_app. left. exact I.
Qed.

Lemma over v1 v2 : all_valid v1 -> all_valid v2 -> all_pairs v1 v2 -> deg_ok v1 -> deg_ok v2 -> over_ok D lim tt0 v1 v2.
Proof. intros V1 V2 A D1 D2 a b Ia Ib. destruct (A a b Ia Ib) as [F T]. apply (te_over _ _ _ _ _ TX); auto. Qed.

Lemma no_mults_ok v1 v2 : v2 <> [] -> all_valid v1 -> all_valid v2 -> all_pairs v1 v2 -> deg_ok v1 -> deg_ok v2 ->
  exists b, no_mults E tt0 u v1 v2 = Ok b /\ (b = true <-> filter kp (list_prod v1 v2) = []).
Proof.
  intros NE V1 V2 A D1 D2. unfold no_mults. unfold degree_vector at 1. rewrite (rmap_all _ D) by (apply deg_vec; auto). cbn [bind].
  destruct (degree_sorted_ok E (eo_perm _ _ _ EO) (eo_sorted _ _ _ EO) D tt0 u v2 NE (deg_vec v2 V2 D2)) as (v2' & E2 & P2 & S2).
  unfold degree_sorted in E2. destruct (degree_vector tt0 u v2) as [vd2| |]; cbn [bind] in *; try discriminate.
  destruct (permuted vd2 _) as [vd2'| |]; cbn [bind] in *; try discriminate. destruct (permuted v2 _) as [w| |]; cbn [bind] in E2; try discriminate. injection E2 as -> ->.
  pose proof (over v1 v2' V1 (perm_all_valid _ _ P2 V2) (perm_all_pairs _ _ _ _ (Permutation_refl _) P2 A) D1 (perm_deg_ok _ _ P2 D2)) as OV.
  assert (X : forall l acc, incl l v1 -> rfold (fun cur d1 => it <- upper tt0 (map D v2') d1 0 (len (map D v2')) ;; Ok (cur + it)%nat) (map D l) acc = Ok (acc + len (filter (keep D lim (Some tt0)) (list_prod l v2')))%nat).
  { induction l as [|a l IH]; intros acc I; cbn [map rfold]; [cbn; f_equal; lia|]. rewrite map_length.
    destruct (upper_ok D lim tt0 v1 v2' a 0 (len v2') OV) as (m & -> & _ & _ & Nm); [apply I; left; reflexivity|lia|rewrite slice_whole; exact S2|]. cbn [bind].
    rewrite slice_whole in Nm. rewrite map_length in IH. rewrite IH by (intros z Iz; apply I; right; exact Iz). f_equal. rewrite filter_prod_cons, app_length, map_length. cbn [keep fst snd].
    change (len (filter (fun b => within D lim a b) v2')) with (len (filter (within D lim a) v2')). lia. }
  rewrite X by apply incl_refl. cbn [bind]. eexists. split; [reflexivity|]. rewrite Nat.add_0_l, Nat.eqb_eq, length_zero_iff_nil, Ht.
  assert (PP : Permutation (filter (keep D lim (Some tt0)) (list_prod v1 v2')) (filter (keep D lim (Some tt0)) (list_prod v1 v2))) by (apply filter_perm, list_prod_perm; auto).
  split; intros Z0; rewrite Z0 in PP; [apply Permutation_nil in PP|apply Permutation_sym, Permutation_nil in PP]; exact PP.
Qed.
End Trunc.

(** What the product of two term lists must be. *)
Definition product_table (v1 v2 : list term) (r : list term) : Prop :=
  (forall P, psum CO P r = psum CO P (map pterm (filter kp (list_prod v1 v2)))).
Definition bad_degree (v1 v2 : list term) : Prop := t <> None /\ exists e, (In e v1 \/ In e v2) /\ ~ ks_deg_fits KS (selected sel u (exps (fst e))).

Lemma sub_pairs_ok v1 v2 l : all_valid v1 -> all_valid v2 -> all_pairs v1 v2 -> (forall p, In p l -> In p (list_prod v1 v2)) -> forall p, In p l -> pair_ok p.
Proof. intros V1 V2 A H p I. apply (all_pairs_ok v1 v2); auto. Qed.

Lemma psum_pairs l l' P : Permutation l l' -> psum CO P (map pterm l) = psum CO P (map pterm l').
Proof. intros H. apply (psum_perm CO CL). apply Permutation_map. exact H. Qed.

Lemma filter_prod_len v1 v2 : (len (filter kp (list_prod v1 v2)) <= len v1 * len v2)%nat.
Proof. etransitivity; [apply filter_len|]. rewrite prod_length. lia. Qed.

Lemma one_table_wf tg (tab : list term) : sorted_set u -> NoDup (map fst tab) -> (forall k c, In (k, c) tab -> c <> c_zero CO /\ valid k) -> wf KO KS CO (Series [tab] 0 tg u : series).
Proof.
  intros SU N H. apply wf_iff. split; [exact SU|]. split; [cbn; lia|]. split; [reflexivity|]. cbn [s_tables s_log2 s_ss]. intros [|[|i]] tb Ei; try discriminate. cbn in Ei. inversion Ei; subst tb.
  split; [exact N|]. split; [|intros X; contradiction]. intros k c I. destruct (H k c I) as [A B]. split; [exact B|]. split; [exact A|]. cbn. apply Z.mod_1_r.
Qed.

Lemma simple_ok (x y : series) : sorted_set u -> all_valid (terms x) -> all_valid (terms y) -> terms x <> [] -> terms y <> [] ->
  (exists r, poly_mul_simple KO CO PO E t (Series [[]] 0 (tag_default TO) u) x y = Ok r /\ wf KO KS CO r /\ s_ss r = u /\ s_tag r = tag_default TO /\ all_pairs (terms x) (terms y) /\
     product_table (terms x) (terms y) (terms r) /\ (len (terms r) <= len (terms x) * len (terms y))%nat) \/
  (poly_mul_simple KO CO PO E t (Series [[]] 0 (tag_default TO) u) x y = Throw overflow_error /\ (~ all_pairs (terms x) (terms y) \/ bad_degree (terms x) (terms y))).
Proof.
  intros SU V1 V2 NX NY. unfold poly_mul_simple. cbn [s_ss s_tables rd nth_error].
  destruct (check_ok _ _ V1 V2) as [[-> A]|[-> NA]]; cbn [bind]; [|right; split; [reflexivity|left; exact NA]].
  assert (G : forall l, Permutation l (filter kp (list_prod (terms x) (terms y))) -> exists r, (tab' <- rfold (accumulate KO CO PO u) l [] ;; Ok (put_table (Series [[]] 0 (tag_default TO) u) 0 (erase_zeros CO tab'))) = Ok r /\
    wf KO KS CO r /\ s_ss r = u /\ s_tag r = tag_default TO /\ all_pairs (terms x) (terms y) /\ product_table (terms x) (terms y) (terms r) /\ (len (terms r) <= len (terms x) * len (terms y))%nat).
  { intros l PL. assert (OKL : forall p, In p l -> pair_ok p). { apply (sub_pairs_ok (terms x) (terms y)); auto. intros p I. apply (Permutation_in _ PL) in I. apply filter_In in I as [I _]. exact I. }
    destruct (task_table KO KS CO PO KL CL u l OKL) as (tab & -> & N & Hk & P & L). cbn [bind]. eexists. split; [reflexivity|]. unfold put_table, set_tables. cbn [s_tables firstn skipn app s_log2 s_tag s_ss].
    assert (TT : forall tb, terms (Series [tb] 0 (tag_default TO) u : series) = tb) by (intros; unfold terms; cbn; apply app_nil_r). rewrite TT.
    split; [|split; [reflexivity|split; [reflexivity|split; [exact A|split]]]].
    - apply one_table_wf; auto. intros k c I. destruct (Hk k c I) as (Nz & p & Ip & ->). split; [exact Nz|]. apply (pterm_ok KO KS CO KL u p). apply OKL, Ip.
    - intros Q. rewrite P. apply psum_pairs. exact PL.
    - rewrite (Permutation_length PL) in L. pose proof (filter_prod_len (terms x) (terms y)). lia. }
  assert (HT : (exists t0, t = Some t0) \/ t = None) by (destruct t; eauto). destruct HT as [(t0 & Ht)|Ht]; idtac.
  - rewrite Ht. destruct (deg_vec_bad t0 Ht _ V1) as [D1|[EB B]].
    2: { right. unfold degree_sorted. rewrite EB. cbn [bind]. split; [reflexivity|]. right. split; [congruence|]. destruct B as (e & I & B). exists e. auto. }
    destruct (degree_sorted_ok E (eo_perm _ _ _ EO) (eo_sorted _ _ _ EO) D t0 u _ NX (deg_vec t0 Ht _ V1 D1)) as (v1 & -> & P1 & S1). cbn [bind].
    destruct (deg_vec_bad t0 Ht _ V2) as [D2|[EB B]].
    2: { right. unfold degree_sorted. rewrite EB. cbn [bind]. split; [reflexivity|]. right. split; [congruence|]. destruct B as (e & I & B). exists e. auto. }
    destruct (degree_sorted_ok E (eo_perm _ _ _ EO) (eo_sorted _ _ _ EO) D t0 u _ NY (deg_vec t0 Ht _ V2 D2)) as (v2 & -> & P2 & S2). cbn [bind].
    assert (OV : over_ok D lim t0 v1 v2) by (apply (over t0 Ht); [eapply perm_all_valid|eapply perm_all_valid|eapply perm_all_pairs|eapply perm_deg_ok|eapply perm_deg_ok]; eauto).
    rewrite (simple_pairs_some D lim t0 v1 v2) by auto. cbn [bind].
    left. apply G. rewrite Ht. apply filter_perm. apply list_prod_perm; auto.
  - rewrite Ht, simple_pairs_none. cbn [bind]. left. apply G. rewrite Ht. unfold keep. assert (X : forall l : list (term * term), filter (fun _ => true) l = l) by (induction l as [|z l IH]; cbn; congruence). rewrite X. reflexivity.
Qed.

(** ** The segmented algorithm *)
Lemma seg_of_product log2 p : (log2 <= 63)%nat -> pair_ok p -> seg_of (C := C) KO log2 (pterm p) = ((seg_of (C := C) KO log2 (fst p) + seg_of (C := C) KO log2 (snd p)) mod 2 ^ log2)%nat.
Proof.
  intros L OK. destruct (pterm_ok KO KS CO KL u p OK) as (_ & _ & _ & H). unfold seg_of. rewrite H. clear H.
  set (a := k_hash KO (fst (fst p))). set (b := k_hash KO (fst (snd p))). assert (P : 0 < 2 ^ Z.of_nat log2) by (apply Z.pow_pos_nonneg; lia).
  apply Nat2Z.inj. rewrite Nat2Z.inj_mod, Nat2Z.inj_add, pow2_Z, !Z2Nat.id by (apply Z.mod_pos_bound; exact P).
  rewrite <- Z.add_mod by lia. replace (2 ^ 64) with (2 ^ Z.of_nat log2 * 2 ^ (64 - Z.of_nat log2)) by (rewrite <- Z.pow_add_r by lia; f_equal; lia).
  rewrite Z.rem_mul_r by (try lia; apply Z.pow_pos_nonneg; lia). rewrite Z.mul_comm, Z.mod_add by lia. apply Z.mod_mod. lia.
Qed.

Lemma psum_tables (tk : nat -> list (term * term)) P : forall ss tabs, Forall2 (fun s tab => psum CO P tab = psum CO P (map pterm (tk s))) ss tabs ->
  psum CO P (List.concat tabs) = psum CO P (map pterm (List.concat (map tk ss))).
Proof.
  induction 1 as [|s tab ss0 tabs H F IH]; [reflexivity|]. cbn [List.concat map]. rewrite map_app, !(psum_app CO CL), H, IH. reflexivity.
Qed.
Lemma len_tables (tk : nat -> list (term * term)) : forall ss tabs, Forall2 (fun s (tab : list term) => (len tab <= len (tk s))%nat) ss tabs -> (len (List.concat tabs) <= len (List.concat (map tk ss)))%nat.
Proof. induction 1 as [|s tab ss0 tabs H F IH]; [apply le_n|]. cbn [List.concat map]. rewrite !app_length. lia. Qed.
Lemma len_concat_in {A} (l : list A) ls : In l ls -> (len l <= len (List.concat ls))%nat.
Proof. induction ls as [|a ls IH]; intros []; cbn [List.concat]; rewrite app_length; [subst; lia|]. apply IH in H. lia. Qed.
Lemma forall2_impl {A B} (R S : A -> B -> Prop) l l' : (forall a b, In a l -> R a b -> S a b) -> Forall2 R l l' -> Forall2 S l l'.
Proof. intros H F. induction F; constructor; [apply H; [left; reflexivity|assumption]|]. apply IHF. intros a b I. apply H. right. exact I. Qed.

Lemma mt_ok (x y : series) : sorted_set u -> all_valid (terms x) -> all_valid (terms y) -> terms x <> [] -> terms y <> [] ->
  (exists r, poly_mul_mt KO CO PO E t (Series [[]] 0 (tag_default TO) u) x y = Ok r /\ wf KO KS CO r /\ s_ss r = u /\ s_tag r = tag_default TO /\ all_pairs (terms x) (terms y) /\
     product_table (terms x) (terms y) (terms r) /\ (len (terms r) <= len (terms x) * len (terms y))%nat) \/
  (poly_mul_mt KO CO PO E t (Series [[]] 0 (tag_default TO) u) x y = Throw overflow_error /\
    (~ all_pairs (terms x) (terms y) \/ bad_degree (terms x) (terms y) \/ exists lg, (lg <= max_log2_size)%nat /\ max_table_size lg < Z.of_nat (len (terms x) * len (terms y)))).
Proof.
  intros SU V1 V2 NX NY. unfold poly_mul_mt. cbn [s_ss].
  destruct (check_ok _ _ V1 V2) as [[-> A]|[-> NA]]; cbn [bind]; [|right; split; [reflexivity|left; exact NA]].
  set (w1 := terms x) in *. set (w2 := terms y) in *.
  assert (HT : (exists t0, t = Some t0) \/ t = None) by (destruct t; eauto).
  assert (DG : (deg_ok w1 /\ deg_ok w2) \/ t = None \/ ((match t with None => Ok false | Some t => no_mults E t u w1 w2 end) = Throw overflow_error /\ bad_degree w1 w2)).
  { destruct HT as [(t0 & Ht)|Ht]; [|auto]. destruct (deg_vec_bad t0 Ht _ V1) as [D1|[EB B]].
    2: { right. right. rewrite Ht. unfold no_mults. rewrite EB. split; [reflexivity|]. split; [congruence|]. destruct B as (e & I & B). exists e. auto. }
    destruct (deg_vec_bad t0 Ht _ V2) as [D2|[EB B]]; [auto|].
    right. right. rewrite Ht. unfold no_mults. unfold degree_vector at 1. rewrite (rmap_all _ D) by (apply (deg_vec t0 Ht); auto). cbn [bind]. rewrite EB. split; [reflexivity|]. split; [congruence|]. destruct B as (e & I & B). exists e. auto. }
  assert (DG' : (match t with None => True | Some _ => deg_ok w1 /\ deg_ok w2 end) \/ ((match t with None => Ok false | Some t => no_mults E t u w1 w2 end) = Throw overflow_error /\ bad_degree w1 w2)).
  { destruct DG as [G|[G|G]]; [left; destruct t; auto|left; rewrite G; exact I|right; exact G]. }
  destruct DG' as [G|[-> B]]; [|right; split; [reflexivity|right; left; exact B]]. clear DG.
  assert (NM : exists b, (match t with None => Ok false | Some t => no_mults E t u w1 w2 end) = Ok b /\ (b = true -> filter kp (list_prod w1 w2) = [])).
  { destruct HT as [(t0 & Ht)|Ht]; rewrite Ht; [|exists false; split; [reflexivity|discriminate]]. rewrite Ht in G. destruct G as [G1 G2].
    destruct (no_mults_ok t0 Ht w1 w2 NY V1 V2 A G1 G2) as (b & -> & B). exists b. split; [reflexivity|]. rewrite Ht in B. apply B. }
  destruct NM as (b & -> & NM). cbn [bind]. destruct b.
  { left. eexists. split; [reflexivity|]. split; [apply one_table_wf; auto; [constructor|intros k c []]|]. split; [reflexivity|]. split; [reflexivity|]. split; [exact A|]. split; [|cbn; lia].
    intros P. rewrite (NM eq_refl). reflexivity. }
  clear NM. set (log2 := Nat.min (me_log2 E w1 w2) max_log2_size). assert (Llog : (log2 <= max_log2_size)%nat) by apply Nat.le_min_r.
  destruct (set_n_segments_ok KO KS CO (Series [[]] 0 (tag_default TO) u : series) log2 Llog SU) as [-> _]. cbn [bind s_tag s_ss s_tables].
  set (nsegs := (2 ^ log2)%nat). set (q1 := me_sort E _ w1). set (q2 := me_sort E _ w2).
  assert (P1 : Permutation q1 w1) by apply (eo_perm _ _ _ EO). assert (P2 : Permutation q2 w2) by apply (eo_perm _ _ _ EO).
  destruct (compute_vseg_ok KO log2 q1 (eo_sorted _ _ _ EO _ _ _)) as (vseg1 & -> & VS1).
  destruct (compute_vseg_ok KO log2 q2 (eo_sorted _ _ _ EO _ _ _)) as (vseg2 & -> & VS2). cbn [bind].
  assert (SS : forall q w vseg, Permutation q w -> w <> [] -> all_valid w -> (match t with None => True | Some _ => deg_ok w end) -> vseg_ok KO log2 q vseg ->
    exists v vd, (match t with None => Ok (q, []) | Some t => seg_sorted E t u q vseg end) = Ok (v, vd) /\ Permutation v w /\ vseg_ok KO log2 v vseg /\ good_vd D t v vd vseg).
  { intros q w vseg Pq Nw Vw Dw VS. destruct HT as [(t0 & Ht)|Ht]; rewrite Ht.
    - rewrite Ht in Dw. destruct (seg_sorted_ok KO E (eo_perm _ _ _ EO) (eo_sorted _ _ _ EO) log2 D t0 u q vseg) as (v & -> & Pv & VS' & BD); auto.
      + intros ->. apply Nw. apply Permutation_nil in Pq. exact Pq.
      + apply (deg_vec t0 Ht); [eapply perm_all_valid; eauto|eapply perm_deg_ok; eauto].
      + exists v, (map D v). split; [reflexivity|]. split; [etransitivity; eauto|]. split; [exact VS'|]. split; [reflexivity|exact BD].
    - exists q, []. split; [reflexivity|]. split; [exact Pq|]. split; [exact VS|exact I]. }
  destruct (SS q1 w1 vseg1 P1 NX V1) as (v1 & vd1 & -> & Pv1 & VV1 & G1); [destruct t; [apply G|exact I]|exact VS1|]. cbn [bind].
  destruct (SS q2 w2 vseg2 P2 NY V2) as (v2 & vd2 & -> & Pv2 & VV2 & G2); [destruct t; [apply G|exact I]|exact VS2|]. cbn [bind].
  assert (OV : over_ok' D lim t v1 v2).
  { unfold over_ok'. destruct HT as [(t0 & Ht)|Ht]; rewrite Ht; [|exact I]. rewrite Ht in G. destruct G as [D1 D2]. apply (over t0 Ht); [eapply perm_all_valid|eapply perm_all_valid|eapply perm_all_pairs|eapply perm_deg_ok|eapply perm_deg_ok]; eauto. }
  set (tk := task log2 D lim t v1 v2 vseg1 vseg2).
  assert (TP : Permutation (List.concat (map tk (seq 0 nsegs))) (filter kp (list_prod w1 w2))).
  { etransitivity; [apply (tasks_exact KO log2 D lim t v1 v2 vseg1 vseg2 VV1 VV2)|]. apply filter_perm, list_prod_perm; auto. }
  assert (IT : forall s p, (s < nsegs)%nat -> In p (tk s) -> In p (list_prod w1 w2)).
  { intros s p Hs Ip. assert (X : In p (filter kp (list_prod w1 w2))). { eapply Permutation_in; [exact TP|]. apply in_concat. exists (tk s). split; [apply in_map; apply in_seq; lia|exact Ip]. } apply filter_In in X. apply X. }
  assert (STEP : forall s, (s < nsegs)%nat -> exists tab, rfold (accumulate KO CO PO u) (tk s) [] = Ok tab /\ let tb := erase_zeros CO tab in
      NoDup (map fst tb) /\ (forall k c, In (k, c) tb -> c <> c_zero CO /\ exists p, In p (tk s) /\ k = fst (pterm p)) /\
      (forall P, psum CO P tb = psum CO P (map pterm (tk s))) /\ (len tb <= len (tk s))%nat).
  { intros s Hs. apply (task_table KO KS CO PO KL CL u). intros p Ip. apply (all_pairs_ok w1 w2); auto. eapply IT; eauto. }
  set (F := fun seg_idx => pairs <- task_pairs t v1 v2 vd1 vd2 vseg1 vseg2 nsegs seg_idx ;; tab <- rd (repeat [] nsegs) seg_idx ;; segment_task KO CO PO u log2 pairs tab).
  assert (FS : forall s, (s < nsegs)%nat -> F s = segment_task KO CO PO u log2 (tk s) []).
  { intros s Hs. unfold F. pose proof (task_pairs_ok KO log2 D lim t v1 v2 vd1 vd2 vseg1 vseg2 s VV1 VV2 G1 G2 OV Hs) as TPK. fold nsegs in TPK. rewrite TPK. cbn [bind].
    assert (R : rd (repeat [] nsegs) s = Ok (@nil term)) by (apply rd_some; apply nth_error_repeat; exact Hs). rewrite R. reflexivity. }
  assert (LEN : forall s, (s < nsegs)%nat -> (len (tk s) <= len w1 * len w2)%nat).
  { intros s Hs. transitivity (len (List.concat (map tk (seq 0 nsegs)))); [apply len_concat_in, in_map, in_seq; lia|]. rewrite (Permutation_length TP). apply filter_prod_len. }
  destruct (rmap_spec F (seq 0 nsegs)) as [(tabs & -> & F2)|(l1 & s & l2 & Es & _ & BAD)].
  - left. cbn [bind]. eexists. split; [reflexivity|]. unfold set_tables. cbn [s_log2 s_tag s_ss].
    assert (F3 : Forall2 (fun s tab => NoDup (map fst tab) /\ (forall k c, In (k, c) tab -> c <> c_zero CO /\ exists p, In p (tk s) /\ k = fst (pterm p)) /\
      (forall P, psum CO P tab = psum CO P (map pterm (tk s))) /\ (len tab <= len (tk s))%nat /\ Z.of_nat (len tab) <= max_table_size log2) (seq 0 nsegs) tabs).
    { eapply forall2_impl; [|exact F2]. intros s tab Is Ef. apply in_seq in Is. cbn beta in Ef. change (F s = Ok tab) in Ef. rewrite FS in Ef by lia. destruct (STEP s ltac:(lia)) as (tb & Er & Q1 & Q2 & Q3 & Q4). unfold segment_task in Ef. rewrite Er in Ef. cbn [bind] in Ef.
      destruct (Z.ltb_spec (max_table_size log2) (Z.of_nat (len (erase_zeros CO tb)))); [discriminate|]. inversion Ef. subst tab. auto. }
    split; [|split; [reflexivity|split; [reflexivity|split; [exact A|split]]]].
    + apply wf_iff. split; [exact SU|]. split; [exact Llog|]. split; [cbn [s_tables s_log2]; rewrite <- (Forall2_length _ _ _ F2); apply seq_length|]. cbn [s_tables s_log2 s_ss]. intros i tb Ei.
      destruct (forall2_nth _ _ _ F3 i tb Ei) as (s & Hs & N & Hk & _ & _ & M).
      assert (Li : (i < nsegs)%nat) by (rewrite <- (seq_length nsegs 0); apply nth_error_Some; congruence).
      assert (s = i). { apply (nth_error_nth _ _ 0%nat) in Hs. rewrite seq_nth in Hs by exact Li. lia. } subst s.
      split; [exact N|]. split; [|intros _; exact M]. intros k c I. destruct (Hk k c I) as (Nz & p & Ip & ->).
      assert (PO' : pair_ok p) by (apply (all_pairs_ok w1 w2); auto; eapply IT; eauto).
      split; [apply (pterm_ok KO KS CO KL u p PO')|]. split; [exact Nz|].
      pose proof (seg_of_product log2 p Llog PO') as SP. destruct (task_segment KO log2 D lim t v1 v2 vseg1 vseg2 i p VV1 VV2 Ip) as [TS _]. rewrite TS in SP.
      unfold seg_of in SP. rewrite <- SP, Z2Nat.id; [reflexivity|]. apply Z.mod_pos_bound. apply Z.pow_pos_nonneg; lia.
    + intros P. unfold terms. cbn [s_tables]. rewrite (psum_tables tk P (seq 0 nsegs) tabs); [apply psum_pairs; exact TP|]. eapply forall2_impl; [|exact F3]. intros s tab _ H. apply H.
    + unfold terms. cbn [s_tables]. etransitivity; [apply (len_tables tk (seq 0 nsegs)); eapply forall2_impl; [|exact F3]; intros s tab _ H; apply H|]. rewrite (Permutation_length TP). apply filter_prod_len.
  - right. assert (Hs : (s < nsegs)%nat). { assert (X : In s (seq 0 nsegs)) by (rewrite Es; apply in_or_app; right; left; reflexivity). apply in_seq in X. lia. }
    destruct (STEP s Hs) as (tb & Er & _ & _ & _ & Q4). rewrite FS in BAD by exact Hs. unfold segment_task in BAD. rewrite Er in BAD. cbn [bind] in BAD.
    destruct (Z.ltb_spec (max_table_size log2) (Z.of_nat (len (erase_zeros CO tb)))) as [L|L]; [|destruct BAD as [(e & B & _)|[B _]]; discriminate].
    destruct BAD as [(e & B & EB)|[B _]]; [|discriminate]. inversion B; subst e. fold F. rewrite EB. cbn [bind]. split; [reflexivity|]. right. right. exists log2. split; [exact Llog|]. specialize (LEN s Hs). lia.
Qed.

(** The part before the parallel loop: the tasks. *)
Lemma prelude_ok (x y : series) : sorted_set u -> all_valid (terms x) -> all_valid (terms y) -> terms x <> [] -> terms y <> [] ->
  let p := mt_prelude KO E t (Series [[]] 0 (tag_default TO) u) x y in
  (p = Throw overflow_error /\ (~ all_pairs (terms x) (terms y) \/ bad_degree (terms x) (terms y))) \/
  (p = Ok None /\ filter kp (list_prod (terms x) (terms y)) = [] /\ all_pairs (terms x) (terms y)) \/
  (exists rv log2 tasks tk, p = Ok (Some (rv, log2, tasks)) /\ rv = Series (repeat [] (2 ^ log2)) log2 (tag_default TO) u /\ (log2 <= max_log2_size)%nat /\
     (forall s, (s < 2 ^ log2)%nat -> tasks s = Ok (tk s)) /\ all_pairs (terms x) (terms y) /\
     Permutation (List.concat (map tk (seq 0 (2 ^ log2)))) (filter kp (list_prod (terms x) (terms y))) /\
     (forall s p, (s < 2 ^ log2)%nat -> In p (tk s) -> In p (list_prod (terms x) (terms y)) /\ pair_ok p /\ seg_of (C := C) KO log2 (pterm p) = s)).
Proof.
  intros SU V1 V2 NX NY. unfold mt_prelude. cbn [s_ss].
  destruct (check_ok _ _ V1 V2) as [[-> A]|[-> NA]]; cbn [bind]; [|left; split; [reflexivity|left; exact NA]].
  set (w1 := terms x) in *. set (w2 := terms y) in *.
  assert (HT : (exists t0, t = Some t0) \/ t = None) by (destruct t; eauto).
  assert (DG : (deg_ok w1 /\ deg_ok w2) \/ t = None \/ ((match t with None => Ok false | Some t => no_mults E t u w1 w2 end) = Throw overflow_error /\ bad_degree w1 w2)).
  { destruct HT as [(t0 & Ht)|Ht]; [|auto]. destruct (deg_vec_bad t0 Ht _ V1) as [D1|[EB B]].
    2: { right. right. rewrite Ht. unfold no_mults. rewrite EB. split; [reflexivity|]. split; [congruence|]. destruct B as (e & I & B). exists e. auto. }
    destruct (deg_vec_bad t0 Ht _ V2) as [D2|[EB B]]; [auto|].
    right. right. rewrite Ht. unfold no_mults. unfold degree_vector at 1. rewrite (rmap_all _ D) by (apply (deg_vec t0 Ht); auto). cbn [bind]. rewrite EB. split; [reflexivity|]. split; [congruence|]. destruct B as (e & I & B). exists e. auto. }
  assert (DG' : (match t with None => True | Some _ => deg_ok w1 /\ deg_ok w2 end) \/ ((match t with None => Ok false | Some t => no_mults E t u w1 w2 end) = Throw overflow_error /\ bad_degree w1 w2)).
  { destruct DG as [G|[G|G]]; [left; destruct t; auto|left; rewrite G; exact I|right; exact G]. }
  destruct DG' as [G|[-> B]]; [|left; split; [reflexivity|right; exact B]]. clear DG.
  assert (NM : exists b, (match t with None => Ok false | Some t => no_mults E t u w1 w2 end) = Ok b /\ (b = true -> filter kp (list_prod w1 w2) = [])).
  { destruct HT as [(t0 & Ht)|Ht]; rewrite Ht; [|exists false; split; [reflexivity|discriminate]]. rewrite Ht in G. destruct G as [G1 G2].
    destruct (no_mults_ok t0 Ht w1 w2 NY V1 V2 A G1 G2) as (b & -> & B). exists b. split; [reflexivity|]. rewrite Ht in B. apply B. }
  destruct NM as (b & -> & NM). cbn [bind]. destruct b.
  { right. left. split; [reflexivity|]. split; [apply NM; reflexivity|exact A]. }
  clear NM. set (log2 := Nat.min (me_log2 E w1 w2) max_log2_size). assert (Llog : (log2 <= max_log2_size)%nat) by apply Nat.le_min_r.
  destruct (set_n_segments_ok KO KS CO (Series [[]] 0 (tag_default TO) u : series) log2 Llog SU) as [-> _]. cbn [bind s_tag s_ss s_tables].
  set (nsegs := (2 ^ log2)%nat). set (q1 := me_sort E _ w1). set (q2 := me_sort E _ w2).
  assert (P1 : Permutation q1 w1) by apply (eo_perm _ _ _ EO). assert (P2 : Permutation q2 w2) by apply (eo_perm _ _ _ EO).
  destruct (compute_vseg_ok KO log2 q1 (eo_sorted _ _ _ EO _ _ _)) as (vseg1 & -> & VS1).
  destruct (compute_vseg_ok KO log2 q2 (eo_sorted _ _ _ EO _ _ _)) as (vseg2 & -> & VS2). cbn [bind].
  assert (SS : forall q w vseg, Permutation q w -> w <> [] -> all_valid w -> (match t with None => True | Some _ => deg_ok w end) -> vseg_ok KO log2 q vseg ->
    exists v vd, (match t with None => Ok (q, []) | Some t => seg_sorted E t u q vseg end) = Ok (v, vd) /\ Permutation v w /\ vseg_ok KO log2 v vseg /\ good_vd D t v vd vseg).
  { intros q w vseg Pq Nw Vw Dw VS. destruct HT as [(t0 & Ht)|Ht]; rewrite Ht.
    - rewrite Ht in Dw. destruct (seg_sorted_ok KO E (eo_perm _ _ _ EO) (eo_sorted _ _ _ EO) log2 D t0 u q vseg) as (v & -> & Pv & VS' & BD); auto.
      + intros ->. apply Nw. apply Permutation_nil in Pq. exact Pq.
      + apply (deg_vec t0 Ht); [eapply perm_all_valid; eauto|eapply perm_deg_ok; eauto].
      + exists v, (map D v). split; [reflexivity|]. split; [etransitivity; eauto|]. split; [exact VS'|]. split; [reflexivity|exact BD].
    - exists q, []. split; [reflexivity|]. split; [exact Pq|]. split; [exact VS|exact I]. }
  destruct (SS q1 w1 vseg1 P1 NX V1) as (v1 & vd1 & -> & Pv1 & VV1 & G1); [destruct t; [apply G|exact I]|exact VS1|]. cbn [bind].
  destruct (SS q2 w2 vseg2 P2 NY V2) as (v2 & vd2 & -> & Pv2 & VV2 & G2); [destruct t; [apply G|exact I]|exact VS2|]. cbn [bind].
  assert (OV : over_ok' D lim t v1 v2).
  { unfold over_ok'. destruct HT as [(t0 & Ht)|Ht]; rewrite Ht; [|exact I]. rewrite Ht in G. destruct G as [D1 D2]. apply (over t0 Ht); [eapply perm_all_valid|eapply perm_all_valid|eapply perm_all_pairs|eapply perm_deg_ok|eapply perm_deg_ok]; eauto. }
  set (tk := task log2 D lim t v1 v2 vseg1 vseg2).
  assert (TP : Permutation (List.concat (map tk (seq 0 nsegs))) (filter kp (list_prod w1 w2))).
  { etransitivity; [apply (tasks_exact KO log2 D lim t v1 v2 vseg1 vseg2 VV1 VV2)|]. apply filter_perm, list_prod_perm; auto. }
  assert (IT : forall s p, (s < nsegs)%nat -> In p (tk s) -> In p (list_prod w1 w2)).
  { intros s p Hs Ip. assert (X : In p (filter kp (list_prod w1 w2))). { eapply Permutation_in; [exact TP|]. apply in_concat. exists (tk s). split; [apply in_map; apply in_seq; lia|exact Ip]. } apply filter_In in X. apply X. }
  right. right. eexists _, log2, _, tk. split; [reflexivity|]. split; [reflexivity|]. split; [exact Llog|]. split; [|split; [exact A|split; [exact TP|]]].
  - intros s Hs. apply (task_pairs_ok KO log2 D lim t v1 v2 vd1 vd2 vseg1 vseg2 s VV1 VV2 G1 G2 OV Hs).
  - intros s p Hs Ip. split; [eapply IT; eauto|]. assert (PO' : pair_ok p) by (apply (all_pairs_ok w1 w2); auto; eapply IT; eauto). split; [exact PO'|].
    rewrite (seg_of_product log2 p Llog PO'). apply (task_segment KO log2 D lim t v1 v2 vseg1 vseg2 s p VV1 VV2 Ip).
Qed.

Lemma mul_same_ok (x y : series) : wf KO KS CO x -> wf KO KS CO y -> s_ss x = u -> s_ss y = u ->
  (exists r, poly_mul_identical_ss KO CO PO TO E t x y = Ok r /\ wf KO KS CO r /\ s_ss r = u /\ s_tag r = tag_default TO /\ all_pairs (terms x) (terms y) /\
     product_table (terms x) (terms y) (terms r) /\ (len (terms r) <= len (terms x) * len (terms y))%nat) \/
  (poly_mul_identical_ss KO CO PO TO E t x y = Throw overflow_error /\
    (~ all_pairs (terms x) (terms y) \/ bad_degree (terms x) (terms y) \/ exists lg, (lg <= max_log2_size)%nat /\ max_table_size lg < Z.of_nat (len (terms x) * len (terms y)))).
Proof.
  intros WX WY SX SY. unfold poly_mul_identical_ss. unfold set_symbol_set, series_default, series_empty at 1. cbn [s_tables forallb bind andb s_log2 s_tag]. rewrite SX.
  assert (SU : sorted_set u) by (rewrite <- SX; apply (wf_ss _ _ _ _ WX)).
  assert (V1 : all_valid (terms x)). { intros [k c] I. rewrite <- SX. eapply (wf_valid _ _ _ _ WX); eauto. }
  assert (V2 : all_valid (terms y)). { intros [k c] I. rewrite <- SY. eapply (wf_valid _ _ _ _ WY); eauto. }
  destruct (series_empty x || series_empty y) eqn:EE.
  - left. eexists. split; [reflexivity|]. assert (X : terms x = [] \/ terms y = []) by (apply orb_true_iff in EE as [EE|EE]; apply empty_terms in EE; auto).
    split; [apply one_table_wf; auto; [constructor|intros k c []]|]. split; [reflexivity|]. split; [reflexivity|]. split; [intros a b Ia Ib; destruct X as [X|X]; rewrite X in *; contradiction|]. split; [|cbn; lia].
    intros P. destruct X as [X|X]; rewrite X; rewrite ?list_prod_nil_r; reflexivity.
  - apply orb_false_iff in EE as [E1 E2].
    assert (NX : terms x <> []) by (intros X; apply empty_terms in X; congruence). assert (NY : terms y <> []) by (intros X; apply empty_terms in X; congruence).
    destruct (me_mt E x y).
    + apply mt_ok; auto.
    + destruct (simple_ok x y SU V1 V2 NX NY) as [H|[H1 H2]]; [left; exact H|right; split; [exact H1|]]. destruct H2; auto.
Qed.
End Same.
