(** Properties C64, C65: the estimate of the size of a product, which determines its number of segments.
    Model: EstModel.v; [rand]: the implementation defined random numbers, [reduce]: any schedule of tbb::parallel_reduce. *)
From Coq Require Import ZArith List Bool String Arith Sorted Permutation Lia.
From Verif Require Import Base KpackTables KpackModel KpackSpec KpackProofs P_Kpack IntModel IntSpec IntProofs SymModel SymSpec SymProofs PMonModel PMonSpec PMonProofs PMonProofs2 P_PMon KeyOps KeyInst
  SeriesModel SeriesModel2 SeriesSpec SeriesProofs SeriesProofs2 SeriesProofs5 CfInst P_Series P_Series2
  PolyModel PolyModel2 PolySpec PolyProofs PolyProofs2 PolyProofs6 PolyProofs7 PolyProofs8 P_Poly P_Poly2 EstModel EstProofs.
Import ListNotations.
Open Scope Z_scope.
Open Scope res_scope.
Local Notation len := List.length.

(** std::shuffle permutes, std::uniform_int_distribution(0, n - 1) draws a number less than n. *)
Definition rand_ok (R : rand) : Prop :=
  (forall i l, Permutation (r_shuffle R i l) l) /\ (forall i lims n, (0 < n)%nat -> (r_pick R i lims n < n)%nat).

(** The number of pairs of terms of x and y whose product is computed: all, or those of degree at most lim. *)
Definition n_products {K C Tag : Type} (KS : key_sem K) (sel : string -> bool) (limit : option Z) (x y : series K C Tag) : Z :=
  let deg k := degree_of sel (s_ss x) (ks_exps KS (len (s_ss x)) k) in
  Z.of_nat (len (filter (fun '((k, _), (k', _)) => match limit with None => true | Some lim => deg k + deg k' <=? lim end) (list_prod (terms x) (terms y)))).

Section Est.
Context {K C Tag : Type} (KO : key_ops K) (KS : key_sem K) (CO : cf_ops C).
Hypothesis KL : key_laws KO KS.
Notation series := (series K C Tag).
Notation term := (K * C)%type.

Lemma wf_all_valid (x : series) : wf KO KS CO x -> all_valid KS (s_ss x) (terms x).
Proof. intros W [k c] I. apply (wf_valid _ _ _ _ W k c I). Qed.
Lemma no_product_unrep (x y : series) : wf KO KS CO x -> wf KO KS CO y -> s_ss y = s_ss x -> ~ product_unrep KS (s_ss x) x y -> all_pairs KS (s_ss x) (terms x) (terms y).
Proof.
  intros WX WY ES NU [k c] [k' c'] I J. cbn [fst].
  destruct (pair_dec KO KS KL (s_ss x) k k') as [Q|Q]; [apply (wf_valid _ _ _ _ WX k c I)|rewrite <- ES; apply (wf_valid _ _ _ _ WY k' c' J)|exact Q|].
  exfalso. apply NU. exists (k, c), (k', c'). split; [exact I|]. split; [exact J|]. cbn [fst]. pose proof (spread_exps KO KS CO KL x k c WX I) as ->. pose proof (spread_exps KO KS CO KL y k' c' WY J) as SY. rewrite ES in SY. rewrite ES, SY. exact Q.
Qed.
Lemma no_degree_unrep sel (x : series) : wf KO KS CO x -> ~ degree_unrep KS sel (s_ss x) x -> deg_ok KS sel (s_ss x) (terms x).
Proof.
  intros W NU [k c] I. destruct (kl_deg_dec _ _ KL (selected sel (s_ss x) (ks_exps KS (len (s_ss x)) k))) as [Q|Q]; [exact Q|]. exfalso. apply NU. exists k, c. split; [exact I|].
  rewrite (spread_exps KO KS CO KL x k c W I). exact Q.
Qed.

Lemma n_products_keep sel lim (t : option (trunc K)) (x y : series) : 
  Z.of_nat (len (filter (keep (@PolyProofs6.D K C KS sel (s_ss x)) lim t) (list_prod (terms x) (terms y)))) = n_products KS sel (match t with None => None | Some _ => Some lim end) x y.
Proof.
  unfold n_products. f_equal. f_equal. apply filter_ext. intros [[k c] [k' c']]. destruct t; [|reflexivity]. unfold keep, within, D. cbn [fst snd].
  destruct (Z.leb_spec (degree_of sel (s_ss x) (ks_exps KS (len (s_ss x)) k')) (lim - degree_of sel (s_ss x) (ks_exps KS (len (s_ss x)) k))), (Z.leb_spec (degree_of sel (s_ss x) (ks_exps KS (len (s_ss x)) k) + degree_of sel (s_ss x) (ks_exps KS (len (s_ss x)) k')) lim); auto; lia.
Qed.

(** C64. For two non-empty polynomials over the same symbols, the shorter first, whose product is representable, and for every schedule and all random numbers,
    the estimate has an outcome; it never runs into undefined behaviour; it counts exactly the multiplications to be done; the estimated number of terms is positive and at most
    3/2 of the number of pairs.  The only exception is that of the conversion of the number of trials to unsigned. *)
Theorem estimate_exact : forall (E : mul_env K C Tag) R t sel lim (x y : series), env_ok KO KS E -> rand_ok R ->
  match t with None => True | Some t => trunc_exact KS sel lim (s_ss x) t /\ ~ degree_unrep KS sel (s_ss x) x /\ ~ degree_unrep KS sel (s_ss x) y end ->
  wf KO KS CO x -> wf KO KS CO y -> s_ss y = s_ss x -> ~ product_unrep KS (s_ss x) x y ->
  (0 < series_size x <= series_size y)%nat ->
  let mults := n_products KS sel (match t with None => None | Some _ => Some lim end) x y in
  (exists o, estimate KO E R t (s_ss x) (terms x) (terms y) o) /\
  forall o, estimate KO E R t (s_ss x) (terms x) (terms y) o ->
    (exists est, o = Ok (est, mults) /\ 1 <= est /\ 2 * est <= 3 * Z.of_nat (series_size x) * Z.of_nat (series_size y)) \/
    (o = Throw bad_numeric_cast /\ r_cast R mults = None).
Proof.
  intros E R t sel lim x y EO [RS RP] TE WX WY ES NU SZ mults. rewrite !size_terms in *.
  assert (AP := no_product_unrep x y WX WY ES NU).
  assert (V2 : all_valid KS (s_ss x) (terms y)) by (rewrite <- ES; apply wf_all_valid, WY).
  destruct (estimate_ok KO KS E R KL EO sel lim t (s_ss x)) with (v1 := terms x) (v2 := terms y) as [X Y]; auto.
  - destruct t; [apply TE|exact I].
  - destruct (terms y); [cbn in SZ; lia|discriminate].
  - lia.
  - apply wf_all_valid, WX.
  - intros NT. destruct t; [|contradiction]. destruct TE as (_ & Dx & Dy). split; [apply no_degree_unrep; auto|]. rewrite <- ES. apply no_degree_unrep; [auto|rewrite ES; exact Dy].
  - destruct (terms x); [cbn in SZ; lia|discriminate].
  - split; [exact X|]. intros o O. apply Y in O. rewrite n_products_keep in O. fold mults in O. destruct O as [O|O]; auto.
Qed.

(** C64. If the degree of a term cannot be computed, the estimate reports it. *)
Theorem estimate_degree_overflow : forall (E : mul_env K C Tag) R t sel lim (x y : series), env_ok KO KS E ->
  trunc_exact KS sel lim (s_ss x) t -> wf KO KS CO x -> wf KO KS CO y -> s_ss y = s_ss x ->
  degree_unrep KS sel (s_ss x) x \/ degree_unrep KS sel (s_ss x) y ->
  forall o, estimate KO E R (Some t) (s_ss x) (terms x) (terms y) o <-> o = Throw overflow_error.
Proof.
  intros E R t sel lim x y EO TE WX WY ES DU.
  assert (V2 : all_valid KS (s_ss x) (terms y)) by (rewrite <- ES; apply wf_all_valid, WY). assert (V1 := wf_all_valid x WX).
  assert (NB : forall s : series, wf KO KS CO s -> s_ss s = s_ss x -> deg_ok KS sel (s_ss x) (terms s) -> ~ degree_unrep KS sel (s_ss x) s).
  { intros s Ws Ss G (k & c & I & N). apply N. rewrite <- Ss. rewrite (spread_exps KO KS CO KL s k c Ws I), Ss. apply (G (k, c) I). }
  assert (ED : est_data E (Some t) (s_ss x) (terms x) (terms y) = Throw overflow_error).
  { unfold est_data. destruct (deg_vec_bad KO KS KL sel lim (Some t) (s_ss x) TE t eq_refl _ V1) as [G1|[-> _]]; [|reflexivity].
    destruct (deg_vec_bad KO KS KL sel lim (Some t) (s_ss x) TE t eq_refl _ V2) as [G2|[E2 _]].
    - exfalso. destruct DU as [DU|DU]; [apply (NB x) in DU|apply (NB y) in DU]; auto.
    - unfold degree_vector at 1. rewrite (rmap_all _ (D KS sel (s_ss x))) by (apply (deg_vec KS sel lim (Some t) (s_ss x) TE t eq_refl); auto). cbn [bind]. rewrite E2. reflexivity. }
  intros o. split; [|intros ->; apply es_data_fail, ED]. intros O. inversion O; congruence.
Qed.

(** C64. If there is no truncation and no two products of a term of x and a term of y have the same exponents, the estimate is exact. *)
Lemma products_distinct : forall R (u : symbol_set) (v1 v2 : list term) i, v2 <> [] -> all_valid KS u v1 -> all_valid KS u v2 -> all_pairs KS u v1 v2 -> rand_ok R ->
  (forall a a' b b', In a v1 -> In a' v1 -> In b v2 -> In b' v2 -> vadd (ks_exps KS (len u) (fst a)) (ks_exps KS (len u) (fst b)) = vadd (ks_exps KS (len u) (fst a')) (ks_exps KS (len u) (fst b')) -> a = a' /\ b = b') ->
  NoDup v1 -> forall idxs lims ls acc, NoDup idxs -> Forall (fun j => (j < len v1)%nat) idxs ->
  (forall k, In k ls -> exists j a b, ~ In j idxs /\ nth_error v1 j = Some a /\ In b v2 /\ ks_valid KS (len u) k /\ ks_exps KS (len u) k = vadd (ks_exps KS (len u) (fst a)) (ks_exps KS (len u) (fst b))) ->
  exists ls', est_products KO R None u v1 v2 [] (seq 0 (len v2)) [] i idxs lims ls acc = Ok (ls', acc + Z.of_nat (len idxs) * Z.of_nat (len v2)) /\ len ls' = (len ls + len idxs)%nat.
Proof.
  intros R u v1 v2 i NE V1 V2 AP [_ RP] DI ND. induction idxs as [|j idxs IH]; intros lims ls acc N F HL; [exists ls; cbn; split; [f_equal; f_equal; lia|lia]|].
  cbn [est_products est_limit bind]. rewrite seq_length. assert (P2 : (0 < len v2)%nat) by (destruct v2; [contradiction|cbn; lia]). destruct (Nat.eqb_spec (len v2) 0) as [|_]; [lia|].
  inversion N as [|? ? Nj N']; inversion F as [|? ? Fj F']; subst.
  specialize (RP i lims (len v2) P2). set (p := r_pick R i lims (len v2)) in *.
  assert (Ep : nth_error (seq 0 (len v2)) p = Some p). { rewrite nth_error_nth' with (d := 0%nat) by (rewrite seq_length; exact RP). rewrite seq_nth by exact RP. reflexivity. }
  rewrite (proj2 (rd_some _ _ _) Ep). cbn [bind].
  destruct (nth_error v1 j) as [a|] eqn:Ea; [|apply nth_error_None in Ea; lia]. destruct (nth_error v2 p) as [b|] eqn:Eb; [|apply nth_error_None in Eb; lia].
  rewrite (proj2 (rd_some _ _ _) Ea), (proj2 (rd_some _ _ _) Eb). cbn [bind]. assert (Ia := nth_error_In _ _ Ea). assert (Ib := nth_error_In _ _ Eb). destruct (AP a b Ia Ib) as [FF _].
  destruct (kl_mul _ _ KL (fst a) (fst b) u (V1 a Ia) (V2 b Ib) FF) as (k & -> & Vk & Ek & _). cbn [bind].
  destruct (existsb (k_eqb KO k) ls) eqn:EX.
  { exfalso. apply existsb_exists in EX as (k' & I' & Q). destruct (HL k' I') as (j' & a' & b' & Nj' & Ea' & Ib' & Vk' & Ek'). apply (kl_eqb _ _ KL) in Q. subst k'. rewrite Ek in Ek'. rename Ek' into Q.
    destruct (DI a a' b b' Ia (nth_error_In _ _ Ea') Ib Ib' Q) as [-> _]. assert (j = j'); [|subst; apply Nj'; left; reflexivity].
    apply (proj1 (NoDup_nth_error v1) ND); [exact Fj|congruence]. }
  destruct (IH (len v2 :: lims) (k :: ls) (acc + Z.of_nat (len v2)) N' F') as (ls' & -> & L).
  - intros k' [<-|I']; [exists j, a, b; auto|]. destruct (HL k' I') as (j' & a' & b' & Nj' & Q). exists j', a', b'. split; [intros X; apply Nj'; right; exact X|exact Q].
  - exists ls'. split; [f_equal; f_equal; cbn [len]; lia|]. cbn [len] in *. lia.
Qed.

Theorem estimate_sparse_exact : forall (E : mul_env K C Tag) R (x y : series), env_ok KO KS E -> rand_ok R ->
  wf KO KS CO x -> wf KO KS CO y -> s_ss y = s_ss x -> ~ product_unrep KS (s_ss x) x y -> (0 < series_size x <= series_size y)%nat ->
  (forall a a' b b', In a (terms x) -> In a' (terms x) -> In b (terms y) -> In b' (terms y) ->
     let e k := ks_exps KS (len (s_ss x)) k in vadd (e (fst a)) (e (fst b)) = vadd (e (fst a')) (e (fst b')) -> a = a' /\ b = b') ->
  let mults := Z.of_nat (series_size x) * Z.of_nat (series_size y) in
  forall o, estimate KO E R None (s_ss x) (terms x) (terms y) o -> o = Ok (mults, mults) \/ (o = Throw bad_numeric_cast /\ r_cast R mults = None).
Proof.
  intros E R x y EO RO WX WY ES NU SZ DI mults o O. unfold mults in *. rewrite !size_terms in *. clear mults.
  assert (AP := no_product_unrep x y WX WY ES NU). assert (V2 : all_valid KS (s_ss x) (terms y)) by (rewrite <- ES; apply wf_all_valid, WY). assert (V1 := wf_all_valid x WX).
  assert (NX : NoDup (terms x)). { apply (NoDup_map_inv fst). apply (wf_keys _ _ _ _ WX). }
  assert (NY : terms y <> []) by (destruct (terms y); [cbn in SZ; lia|discriminate]).
  set (v1 := terms x) in *. set (v2 := terms y) in *. set (u := s_ss x) in *. cbn zeta in DI. clearbody v1 v2 u.
  assert (TR : forall i idxs, Permutation idxs (seq 0 (len v1)) -> est_trial KO R None u v1 v2 [] (seq 0 (len v2)) [] i idxs = Ok (Z.of_nat (len v1) * Z.of_nat (len v2))).
  { intros i idxs P. unfold est_trial. destruct (products_distinct R u v1 v2 i NY V1 V2 AP RO DI NX idxs [] [] 0) as (ls & -> & L).
    - eapply Permutation_NoDup; [symmetry; exact P|apply seq_NoDup].
    - apply Forall_forall. intros j I. apply (Permutation_in _ P) in I. apply in_seq in I. lia.
    - intros k [].
    - cbn [bind]. rewrite L. cbn [len Nat.add]. rewrite Nat.eqb_refl. rewrite (Permutation_length P), seq_length. reflexivity. }
  assert (BL : forall l cur, est_block KO R None u v1 v2 [] (seq 0 (len v2)) [] l cur = Ok (cur + zsum (fun _ => Z.of_nat (len v1) * Z.of_nat (len v2)) l)).
  { intros l cur. unfold est_block. set (f := fun '(vidx1_copy, cur) i => _).
    assert (X : forall l idxs cur, Permutation idxs (seq 0 (len v1)) -> exists idxs', rfold f l (idxs, cur) = Ok (idxs', cur + zsum (fun _ => Z.of_nat (len v1) * Z.of_nat (len v2)) l)).
    { clear l cur. induction l as [|i l IH]; intros idxs cur P; cbn [rfold zsum]; [exists idxs; f_equal; f_equal; lia|].
      unfold f at 1. assert (P' : Permutation (r_shuffle R i idxs) (seq 0 (len v1))) by (etransitivity; [apply RO|exact P]). rewrite TR by exact P'. cbn [bind].
      destruct (IH (r_shuffle R i idxs) (cur + Z.of_nat (len v1) * Z.of_nat (len v2)) P') as (idxs' & ->). exists idxs'. f_equal. f_equal. lia. }
    destruct (X l (seq 0 (len v1)) cur (Permutation_refl _)) as (idxs' & ->). reflexivity. }
  inversion O as [e X|X|a b c e X T|a b c X T|a b c tot X T RC|a b c tot n r X T RC n' RD]; subst; cbn [est_data] in X; try discriminate;
    injection X as <- <- <-; inversion T as [HT|r0 NT]; try contradiction; subst; rewrite seq_length in *.
  - right. auto.
  - left. apply (reduce_sum (fun _ => True) (fun _ => Z.of_nat (len v1) * Z.of_nat (len v2))) in RD; [|intros l cur _; apply BL|apply Forall_forall; auto]. rewrite RD. cbn [bind Z.add].
    assert (5 <= n')%nat by (unfold n'; lia). clearbody n'. destruct (Nat.eqb_spec n' 0) as [|_]; [lia|].
    assert (ZS : forall m k, zsum (fun _ : nat => Z.of_nat (len v1) * Z.of_nat (len v2)) (seq k m) = Z.of_nat m * (Z.of_nat (len v1) * Z.of_nat (len v2))).
    { induction m as [|m IH]; intros k; cbn [seq zsum]; [lia|]. rewrite IH. lia. }
    rewrite ZS, Z.mul_comm, Z.div_mul by lia. destruct (Z.eqb_spec (Z.of_nat (len v1) * Z.of_nat (len v2)) 0) as [|_]; [nia|]. reflexivity.
Qed.
End Est.
Print Assumptions estimate_exact.
Print Assumptions estimate_degree_overflow.
Print Assumptions estimate_sparse_exact.

(** * Examples *)
Definition rand_rev : rand := {| r_shuffle := fun _ l => rev l; r_pick := fun _ lims n => match lims with [] => 0 | _ => n - 1 end; r_cast := fun _ => Some 0 |}%nat.
Lemma rand_rev_ok : rand_ok rand_rev.
Proof. split; [intros i l; symmetry; apply Permutation_rev|]. intros i lims n P. destruct lims; cbn; lia. Qed.
(** a + b in two segments, and a + 2 b^3 - b^5. *)
Definition es_x : series Z Z Z := get d0 (exs 0 ["a"; "b"]%string 1 [([1; 0], 1); ([0; 1], 1)]).
Definition es_y : series Z Z Z := get d0 (exs 0 ["a"; "b"]%string 0 [([1; 0], 1); ([0; 3], 2); ([0; 5], -1)]).
Lemma es_x_wf : wf exK exS Z_cf es_x /\ s_ss es_x = ["a"; "b"]%string /\ s_log2 es_x = 1%nat /\ s_tag es_x = 0.
Proof. apply (exs_wf 0 ["a"; "b"]%string 1 [([1; 0], 1); ([0; 1], 1)]); [repeat constructor|lia|vm_compute; reflexivity|vm_compute; reflexivity]. Qed.
Lemma es_y_wf : wf exK exS Z_cf es_y /\ s_ss es_y = ["a"; "b"]%string /\ s_log2 es_y = 0%nat /\ s_tag es_y = 0.
Proof. apply (exs_wf 0 ["a"; "b"]%string 0 [([1; 0], 1); ([0; 3], 2); ([0; 5], -1)]); [repeat constructor|lia|vm_compute; reflexivity|vm_compute; reflexivity]. Qed.
Lemma representable_product (x y : series Z Z Z) : wf exK exS Z_cf x -> wf exK exS Z_cf y -> s_ss y = s_ss x ->
  forallb (fun p => pm_okb kd_int64 (len (s_ss x)) (ks_exps exS (len (s_ss x)) (fst (fst p))) (ks_exps exS (len (s_ss x)) (fst (snd p)))) (list_prod (terms x) (terms y)) = true ->
  ~ product_unrep exS (s_ss x) x y.
Proof.
  intros WX WY ES F ([k c] & [k' c'] & I & J & N). apply N. cbn [fst]. rewrite (spread_exps exK exS Z_cf exK_laws x k c WX I).
  pose proof (spread_exps exK exS Z_cf exK_laws y k' c' WY J) as SY. rewrite ES in SY |- *. rewrite SY. rewrite forallb_forall in F. specialize (F ((k, c), (k', c'))). rewrite in_prod_iff in F. specialize (F (conj I J)). cbn [fst snd] in F.
  split; [apply representableb_ok; exact F|exact Logic.I].
Qed.
Lemma es_deg sel (u : symbol_set) (x : series Z Z Z) : ~ degree_unrep exS sel u x.
Proof. intros (k & c & _ & N). apply N. exact I. Qed.
(** The hypotheses of [estimate_exact] hold of these two, with the total degree limited to 4 and without truncation; of the 6 products, 4 have degree at most 4. *)
Example ex_estimate : env_ok exK exS (exE true 3) /\ rand_ok rand_rev /\ trunc_exact exS all_symbols 4 (s_ss es_x) (tr_total exK int32 (kd_ty kd_int64) 4) /\
  wf exK exS Z_cf es_x /\ wf exK exS Z_cf es_y /\ s_ss es_y = s_ss es_x /\ ~ product_unrep exS (s_ss es_x) es_x es_y /\ (0 < series_size es_x <= series_size es_y)%nat /\
  n_products exS all_symbols (Some 4) es_x es_y = 4 /\ n_products exS all_symbols None es_x es_y = 6 /\
  estimate exK (exE true 3) rand_rev (Some (tr_total exK int32 (kd_ty kd_int64) 4)) (s_ss es_x) (terms es_x) (terms es_y) (Ok (4, 4)).
Proof.
  split; [apply exE_ok|]. split; [apply rand_rev_ok|]. split.
  { apply (total_exact exK exS exK_laws); [apply (kd_type_ok kd_int64); right; right; left; reflexivity|apply (kd_type_ok kd_int64); right; right; left; reflexivity| |apply pm_sums_fit; right; right; left; reflexivity].
    split; [right; eexists _, _; split; [|reflexivity]; cbn; tauto|]. split; [vm_compute; split; [discriminate|reflexivity]|]. left. reflexivity. }
  pose proof es_x_wf as (WX & SX & _). pose proof es_y_wf as (WY & SY & _). split; [exact WX|]. split; [exact WY|]. assert (ES : s_ss es_y = s_ss es_x) by congruence. split; [exact ES|].
  split; [apply representable_product; auto; vm_compute; reflexivity|]. split; [vm_compute; lia|]. split; [vm_compute; reflexivity|]. split; [vm_compute; reflexivity|].
  match goal with |- estimate _ _ _ _ _ _ _ ?o => set (out := o) end.
  pose proof (es_trials exK (exE true 3) rand_rev (Some (tr_total exK int32 (kd_ty kd_int64) 4)) (s_ss es_x) (terms es_x) (terms es_y) [1; 1] [1%nat; 0%nat; 2%nat] [1; 3; 5] 4 0) as H.
  specialize (H (est_block exK rand_rev (Some (tr_total exK int32 (kd_ty kd_int64) 4)) (s_ss es_x) (terms es_x) (terms es_y) [1; 1] [1%nat; 0%nat; 2%nat] [1; 3; 5] (seq 0 5) 0)).
  assert (X : out = out) by reflexivity. unfold out at 2 in X. clear X. refine (eq_ind _ (fun o => estimate _ _ _ _ _ _ _ o) (H _ _ _ _) out _); [vm_compute; reflexivity| |reflexivity|apply red_run|vm_compute; reflexivity].
  assert (Y : mults_block (Some (tr_total exK int32 (kd_ty kd_int64) 4)) [1; 1] [1%nat; 0%nat; 2%nat] [1; 3; 5] (seq 0 2) 0 = Ok 4) by (vm_compute; reflexivity).
  apply tm_trunc; [discriminate|]. rewrite <- Y. replace (len (terms es_x)) with 2%nat by (vm_compute; reflexivity). apply red_run.
Qed.

(** C65. With the same random numbers, two schedules give different estimates, hence products with different numbers of segments: for (a + b)^2, when all the trials run in one block the
    estimate is 2, when each runs in its own block it is 1.  The average term size is 150000 bytes (a coefficient such as a polynomial or a long integer). *)
Theorem estimate_schedule_refuted : exists (x : series Z Z Z) (R : rand) est est' mults p p', wf exK exS Z_cf x /\ rand_ok R /\ ~ product_unrep exS (s_ss x) x x /\ (0 < series_size x)%nat /\
  estimate exK (exE true 0) R None (s_ss x) (terms x) (terms x) (Ok (est, mults)) /\
  estimate exK (exE true 0) R None (s_ss x) (terms x) (terms x) (Ok (est', mults)) /\
  let segments e := Z.to_nat (est_log2 false e 150000) in
  poly_mul exK Z_cf exP Z_tag (exE true (segments est)) x x = Ok p /\ poly_mul exK Z_cf exP Z_tag (exE true (segments est')) x x = Ok p' /\ s_log2 p <> s_log2 p'.
Proof.
  exists es_x, rand_rev, 2, 1, 4. do 2 eexists. pose proof es_x_wf as (WX & SX & _). split; [exact WX|]. split; [apply rand_rev_ok|].
  split; [apply representable_product; auto; vm_compute; reflexivity|]. split; [vm_compute; lia|].
  assert (T : tot_n_mults (C := Z) None (terms es_x) [] (seq 0 (len (terms es_x))) [] (Ok 4)).
  { replace 4 with (Z.of_nat (len (terms es_x)) * Z.of_nat (len (seq 0 (len (terms es_x))))) by (vm_compute; reflexivity). apply tm_all. reflexivity. }
  pose proof (fun r => es_trials exK (exE true 0) rand_rev None (s_ss es_x) (terms es_x) (terms es_x) [] (seq 0 (len (terms es_x))) [] 4 0 r eq_refl T eq_refl) as H. cbn zeta in H.
  set (b := est_block exK rand_rev None (s_ss es_x) (terms es_x) (terms es_x) [] (seq 0 (len (terms es_x))) []) in *.
  split; [|split].
  - specialize (H (b (seq 0 5) 0) (red_run b 0 (seq 0 5))). assert (Q : b (seq 0 5) 0 = Ok 11) by (vm_compute; reflexivity). rewrite Q in H. exact H.
  - assert (Q : forall i, (i < 5)%nat -> b [i] 0 = Ok 1) by (intros i L; do 5 (destruct i as [|i]; [vm_compute; reflexivity|]); lia).
    assert (S1 : forall i, (i < 5)%nat -> reduce b 0 [i] (Ok 1)) by (intros i L; rewrite <- (Q i L); apply red_run).
    apply (H (Ok 5)).
    change (seq 0 5) with ([0] ++ [1] ++ [2] ++ [3] ++ [4])%nat. 
    refine (red_split b 0 [0]%nat _ 1 4 (S1 0%nat ltac:(lia)) _). refine (red_split b 0 [1]%nat _ 1 3 (S1 1%nat ltac:(lia)) _).
    refine (red_split b 0 [2]%nat _ 1 2 (S1 2%nat ltac:(lia)) _). exact (red_split b 0 [3]%nat [4]%nat 1 1 (S1 3%nat ltac:(lia)) (S1 4%nat ltac:(lia))).
  - cbn zeta. split; [vm_compute; reflexivity|]. split; [vm_compute; reflexivity|]. vm_compute. discriminate.
Qed.
Print Assumptions estimate_schedule_refuted.

(** C65. The estimate does not depend on the schedule when no two products have the same exponents and nothing is truncated. *)
Theorem estimate_schedule_partial : forall K C Tag (KO : key_ops K) (KS : key_sem K) (CO : cf_ops C) (E : mul_env K C Tag) R (x y : series K C Tag), key_laws KO KS -> env_ok KO KS E -> rand_ok R ->
  wf KO KS CO x -> wf KO KS CO y -> s_ss y = s_ss x -> ~ product_unrep KS (s_ss x) x y -> (0 < series_size x <= series_size y)%nat ->
  (forall a a' b b', In a (terms x) -> In a' (terms x) -> In b (terms y) -> In b' (terms y) ->
     let e k := ks_exps KS (len (s_ss x)) k in vadd (e (fst a)) (e (fst b)) = vadd (e (fst a')) (e (fst b')) -> a = a' /\ b = b') ->
  forall o o', estimate KO E R None (s_ss x) (terms x) (terms y) o -> estimate KO E R None (s_ss x) (terms x) (terms y) o' -> o = o'.
Proof.
  intros K C Tag KO KS CO E R x y KL EO RO WX WY ES NU SZ DI o o' O O'.
  pose proof (estimate_sparse_exact KO KS CO KL E R x y EO RO WX WY ES NU SZ DI) as H. cbn zeta in H.
  destruct (r_cast R (Z.of_nat (series_size x) * Z.of_nat (series_size y))) eqn:RC.
  - destruct (H o O) as [->|[_ ?]]; [|discriminate]. destruct (H o' O') as [->|[_ ?]]; [reflexivity|discriminate].
  - assert (X : forall o, estimate KO E R None (s_ss x) (terms x) (terms y) o -> o = Throw bad_numeric_cast).
    { clear - RC. intros o O. rewrite !size_terms in RC. inversion O as [e X|X|a b c e X T|a b c X T|a b c tot X T RC'|a b c tot n r X T RC' n' RD]; subst; cbn [est_data] in X; try discriminate;
        injection X as <- <- <-; inversion T as [HT|r0 NT]; try contradiction; subst; rewrite seq_length in *; congruence. }
    rewrite (X o O), (X o' O'). reflexivity.
Qed.
Print Assumptions estimate_schedule_partial.
(** Its hypothesis holds of (a + b) (a + 2 b^3 - b^5). *)
Example ex_sparse : forall a a' b b', In a (terms es_x) -> In a' (terms es_x) -> In b (terms es_y) -> In b' (terms es_y) ->
     let e k := ks_exps exS (len (s_ss es_x)) k in vadd (e (fst a)) (e (fst b)) = vadd (e (fst a')) (e (fst b')) -> a = a' /\ b = b'.
Proof.
  set (tx := terms es_x). set (ty := terms es_y). vm_compute in tx, ty. subst tx ty.
  intros a a' b b' A A' B B' e. subst e. destruct A as [<-|[<-|[]]], A' as [<-|[<-|[]]], B as [<-|[<-|[<-|[]]]], B' as [<-|[<-|[<-|[]]]]; intros H; try (split; reflexivity); exfalso; vm_compute in H; discriminate H.
Qed.
