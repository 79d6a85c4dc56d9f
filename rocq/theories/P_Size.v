(** Property C69: byte_size() of a series, the estimated size of a term of a product and the number of segments chosen from it. *)
From Coq Require Import ZArith List Bool String Arith Permutation Lia Sorted.
From Verif Require Import Base KpackModel KpackSpec KpackProofs P_Kpack IntModel IntSpec IntProofs SymModel SymSpec SymProofs PMonModel PMonSpec PMonProofs PMonProofs2 P_PMon KeyOps KeyInst
  SeriesModel SeriesModel2 SeriesSpec SeriesProofs SeriesProofs2 SeriesProofs5 CfInst P_Series P_Series2
  PolyModel PolyModel2 PolySpec PolyProofs PolyProofs2 PolyProofs6 PolyProofs7 PolyProofs8 P_Poly P_Poly2 EstModel EstProofs P_Est XoroModel SizeModel.
Import ListNotations.
Open Scope Z_scope.
Open Scope res_scope.
Local Notation len := List.length.

Definition zsum (l : list Z) : Z := fold_right Z.add 0 l.
(** The bytes of a term: its key, its coefficient and the padding. *)
Definition term_bytes {K C Tag : Type} (B : sizes K C Tag) (e : K * C) : Z := bs_key B (fst e) + bs_cf B (snd e) + (so_term B - (so_key B + so_cf B)).
(** The bytes of a series: the object, its tables, the terms and what the tag owns. *)
Definition series_bytes {K C Tag : Type} (B : sizes K C Tag) (s : series K C Tag) : Z :=
  so_series B + Z.of_nat (len (s_tables s)) * so_table B + zsum (map (term_bytes B) (terms s)) +
  match bs_tag B with Some f => f (s_tag s) - so_tag B | None => 0 end.

(** Arithmetic modulo 2^64. *)
Definition eqm (a b : Z) : Prop := a mod 2 ^ 64 = b mod 2 ^ 64.
Lemma eqm_usize a : eqm (usize a) a. Proof. unfold eqm, usize, ubits. apply Z.mod_mod. lia. Qed.
Lemma eqm_add a b c d : eqm a b -> eqm c d -> eqm (a + c) (b + d).
Proof. unfold eqm. intros H1 H2. rewrite Zplus_mod, H1, H2, <- Zplus_mod. reflexivity. Qed.
Lemma eqm_sub a b c d : eqm a b -> eqm c d -> eqm (a - c) (b - d).
Proof. unfold eqm. intros H1 H2. rewrite Zminus_mod, H1, H2, <- Zminus_mod. reflexivity. Qed.
Lemma eqm_refl a : eqm a a. Proof. reflexivity. Qed.
Lemma eqm_trans a b c : eqm a b -> eqm b c -> eqm a c. Proof. unfold eqm. congruence. Qed.
Ltac eqm := match goal with
  | |- eqm ?a ?a => apply eqm_refl
  | |- eqm (usize ?a) _ => apply (eqm_trans _ _ _ (eqm_usize a)); eqm
  | |- eqm (_ + _) (_ + _) => apply eqm_add; eqm
  | |- eqm (_ - _) (_ - _) => apply eqm_sub; eqm
  end.

Lemma zsum_cons x a : zsum (x :: a) = x + zsum a. Proof. reflexivity. Qed.
Lemma zsum_app a b : zsum (a ++ b) = zsum a + zsum b.
Proof. induction a as [|x a IH]; [reflexivity|]. cbn [app]. rewrite !zsum_cons, IH. lia. Qed.
Lemma zsum_perm a b : Permutation a b -> zsum a = zsum b.
Proof. induction 1; rewrite ?zsum_cons; try lia. Qed.

Section PS.
Context {K C Tag : Type} (B : sizes K C Tag).
Lemma st_size_gen tab : forall r, eqm (fold_left (fun ret e => usize (ret + usize (usize (bs_key B (fst e) + bs_cf B (snd e)) + usize (so_term B - usize (so_key B + so_cf B))))) tab r) (r + zsum (map (term_bytes B) tab)).
Proof.
  induction tab as [|e tab IH]; intros r; cbn [fold_left map]; [cbn [zsum fold_right]; rewrite Z.add_0_r; apply eqm_refl|]. rewrite zsum_cons.
  eapply eqm_trans; [apply IH|]. rewrite Z.add_assoc. apply eqm_add; [|apply eqm_refl]. unfold term_bytes. eqm.
Qed.
Lemma st_size tab : eqm (st_byte_size B tab) (zsum (map (term_bytes B) tab)).
Proof. apply (st_size_gen tab 0). Qed.
Lemma block_size tabs : forall r, eqm (size_block B tabs r) (r + zsum (map (term_bytes B) (List.concat tabs))).
Proof.
  unfold size_block. induction tabs as [|tab tabs IH]; intros r; cbn [fold_left List.concat map zsum fold_right]; [rewrite Z.add_0_r; apply eqm_refl|].
  eapply eqm_trans; [apply IH|]. rewrite map_app, zsum_app, Z.add_assoc. apply eqm_add; [|apply eqm_refl]. eapply eqm_trans; [apply eqm_usize|]. apply eqm_add; [apply eqm_refl|apply st_size].
Qed.
Lemma reduce_size cur l r : size_reduce B cur l r -> eqm r (cur + zsum (map (term_bytes B) (List.concat l))).
Proof.
  induction 1 as [cur l|cur l1 l2 a b _ IH1 _ IH2|cur l1 l2 a b _ IH1 _ IH2].
  - apply block_size.
  - rewrite concat_app, map_app, zsum_app, Z.add_assoc. eapply eqm_trans; [exact IH2|]. apply eqm_add; [exact IH1|apply eqm_refl].
  - rewrite concat_app, map_app, zsum_app, Z.add_assoc. eapply eqm_trans; [apply eqm_usize|]. apply eqm_add; [exact IH1|exact IH2].
Qed.
Lemma add_tag_eqm s a b : eqm a b -> eqm (add_tag B s a) (b + match bs_tag B with Some f => f (s_tag s) - so_tag B | None => 0 end).
Proof.
  intros H. unfold add_tag. destruct (bs_tag B) as [f|]; [|rewrite Z.add_0_r; exact H]. rewrite Z.add_sub_assoc. eapply eqm_trans; [apply eqm_usize|]. apply eqm_sub; [|apply eqm_refl].
  eapply eqm_trans; [apply eqm_usize|]. apply eqm_add; [exact H|apply eqm_refl].
Qed.
Lemma usize_range a : 0 <= usize a < 2 ^ 64. Proof. apply Z.mod_pos_bound. reflexivity. Qed.
Lemma byte_size_range s r : byte_size B s r -> 0 <= r < 2 ^ 64.
Proof.
  intros H. assert (A : forall a, 0 <= a < 2 ^ 64 -> 0 <= add_tag B s a < 2 ^ 64) by (intros a Ha; unfold add_tag; destruct (bs_tag B); [apply usize_range|exact Ha]).
  destruct H; apply A, usize_range.
Qed.

(** C69. byte_size() is the number of bytes of the series, modulo 2^64, for every splitting of the reduction. *)
Theorem byte_size_exact : forall s : series K C Tag, (exists r, byte_size B s r) /\
  forall r, byte_size B s r -> 0 <= r < 2 ^ 64 /\ r = series_bytes B s mod 2 ^ 64 /\ (0 <= series_bytes B s < 2 ^ 64 -> r = series_bytes B s).
Proof.
  intros s. split.
  - destruct (s_tables s) as [|t [|t' l]] eqn:ET; [eexists; apply bz_none; exact ET|eexists; apply (bz_one B s t); exact ET|].
    eexists. eapply bz_many; [rewrite ET; cbn; lia|apply sr_run].
  - intros r H. assert (RR := byte_size_range s r H). split; [exact RR|].
    assert (EQ : eqm r (series_bytes B s)).
    { unfold series_bytes, terms. destruct H as [r L R|t ET|ET]; apply add_tag_eqm.
      - eapply eqm_trans; [apply eqm_usize|]. apply eqm_add; [eqm|]. apply (reduce_size 0 _ _ R).
      - rewrite ET. cbn [len List.concat]. change (Z.of_nat 1) with 1. rewrite app_nil_r. eapply eqm_trans; [apply eqm_usize|]. apply eqm_add; [eqm|apply st_size].
      - rewrite ET. cbn [len List.concat map zsum fold_right]. change (Z.of_nat 0) with 0. rewrite (Z.add_0_r (so_series B + _)). eqm. }
    unfold eqm in EQ. rewrite (Z.mod_small r) in EQ by exact RR. split; [exact EQ|]. intros S. rewrite EQ. apply Z.mod_small. exact S.
Qed.

(** C69. It does not depend on the schedule, nor on the order of the terms in the tables. *)
Theorem byte_size_unobservable : forall (s s' : series K C Tag) r r', s_tag s = s_tag s' -> len (s_tables s) = len (s_tables s') -> Permutation (terms s) (terms s') ->
  byte_size B s r -> byte_size B s' r' -> r = r'.
Proof.
  intros s s' r r' ET EL P H H'. destruct (byte_size_exact s) as [_ X]. destruct (byte_size_exact s') as [_ X']. destruct (X r H) as (_ & -> & _). destruct (X' r' H') as (_ & -> & _).
  unfold series_bytes. rewrite ET, EL, (zsum_perm _ _ (Permutation_map (term_bytes B) P)). reflexivity.
Qed.
End PS.

(** ** The average size of the terms of a product *)
Section Avg.
Context {K C Tag : Type} (KO : key_ops K) (KS : key_sem K) (CO : cf_ops C) (B : sizes K C Tag).
Hypothesis KL : key_laws KO KS.
Notation series := (series K C Tag).

(** C69. For polynomials over the same symbols whose product is representable and any indices drawn, the estimated size is defined and positive, and lies between the
    smallest and the largest size of the product of two terms. *)
Theorem avg_term_size_exact : forall (x y : series) draws lo hi, wf KO KS CO x -> wf KO KS CO y -> s_ss y = s_ss x -> ~ product_unrep KS (s_ss x) x y ->
  len draws = ntrials -> (forall p, In p draws -> (fst p < series_size x)%nat /\ (snd p < series_size y)%nat) ->
  0 <= lo -> Z.of_nat ntrials * hi < 2 ^ 64 ->
  (forall a b k, In a (terms x) -> In b (terms y) -> k_mul KO (fst a) (fst b) (s_ss x) = Ok k -> lo <= term_bytes B (k, c_mul CO (snd a) (snd b)) <= hi) ->
  exists r, avg_term_size KO CO B (s_ss x) (terms x) (terms y) draws = Ok r /\ 1 <= r /\ lo <= r <= Z.max 1 hi.
Proof.
  intros x y draws lo hi WX WY ES NU LD RD L0 HI SZ. assert (AP := no_product_unrep KO KS CO KL x y WX WY ES NU).
  assert (ACC : forall l acc n, (forall p, In p l -> (fst p < series_size x)%nat /\ (snd p < series_size y)%nat) -> Z.of_nat n * lo <= acc <= Z.of_nat n * hi -> (n + len l = ntrials)%nat ->
    exists acc', rfold (fun acc p => t1 <- rd (terms x) (fst p) ;; t2 <- rd (terms y) (snd p) ;; k <- k_mul KO (fst t1) (fst t2) (s_ss x) ;;
      Ok (usize (acc + usize (usize (bs_key B k + bs_cf B (c_mul CO (snd t1) (snd t2))) + usize (so_term B - usize (so_cf B + so_key B)))))) l acc = Ok acc' /\
      Z.of_nat ntrials * lo <= acc' <= Z.of_nat ntrials * hi).
  { induction l as [|[i j] l IH]; intros acc n R A N; cbn [rfold].
    - exists acc. split; [reflexivity|]. cbn [len] in N. replace n with ntrials in A by lia. exact A.
    - destruct (R (i, j) (or_introl eq_refl)) as [Ri Rj]. cbn [fst snd] in *. rewrite size_terms in Ri, Rj.
      destruct (nth_error (terms x) i) as [t1|] eqn:E1; [|apply nth_error_None in E1; lia]. destruct (nth_error (terms y) j) as [t2|] eqn:E2; [|apply nth_error_None in E2; lia].
      assert (I1 := nth_error_In _ _ E1). assert (I2 := nth_error_In _ _ E2).
      unfold rd at 1 2. rewrite E1, E2. cbn [bind].
      assert (V1 : ks_valid KS (len (s_ss x)) (fst t1)) by (destruct t1; eapply (wf_valid _ _ _ _ WX); eauto).
      assert (V2 : ks_valid KS (len (s_ss x)) (fst t2)) by (rewrite <- ES; destruct t2; eapply (wf_valid _ _ _ _ WY); eauto).
      destruct (kl_mul _ _ KL (fst t1) (fst t2) (s_ss x) V1 V2 (proj1 (AP t1 t2 I1 I2))) as (k & EK & _). rewrite EK. cbn [bind].
      pose proof (SZ t1 t2 k I1 I2 EK) as TB. cbn [len] in N.
      match goal with |- context [rfold _ l ?a] => assert (EA : a = acc + term_bytes B (k, c_mul CO (snd t1) (snd t2))) end.
      { assert (BD : 0 <= acc + term_bytes B (k, c_mul CO (snd t1) (snd t2)) < 2 ^ 64) by (assert (Z.of_nat n + 1 <= Z.of_nat ntrials) by lia; nia).
        rewrite <- (Z.mod_small _ _ BD). unfold usize at 1, ubits. unfold term_bytes. cbn [fst snd]. change (eqm (acc + usize (usize (bs_key B k + bs_cf B (c_mul CO (snd t1) (snd t2))) + usize (so_term B - usize (so_cf B + so_key B)))) (acc + (bs_key B k + bs_cf B (c_mul CO (snd t1) (snd t2)) + (so_term B - (so_key B + so_cf B))))).
        rewrite (Z.add_comm (so_key B)). eqm. }
      rewrite EA. apply (IH _ (S n)); [intros p Ip; apply R; right; exact Ip|rewrite Nat2Z.inj_succ; nia|lia]. }
  destruct (ACC draws 0 0%nat RD ltac:(lia) LD) as (acc & EA & BA). unfold avg_term_size, avg_acc. rewrite EA. cbn [bind]. eexists. split; [reflexivity|].
  change (Z.of_nat ntrials) with 10 in *. 
  assert (Q : let q := acc / 10 + (if acc mod 10 =? 0 then 0 else 1) in lo <= q <= hi).
  { cbv zeta. pose proof (Z.div_mod acc 10 ltac:(lia)) as DM. pose proof (Z.mod_pos_bound acc 10 ltac:(lia)). destruct (Z.eqb_spec (acc mod 10) 0); lia. }
  cbv zeta in Q. set (q := acc / 10 + (if acc mod 10 =? 0 then 0 else 1)) in *. unfold usize, ubits. assert (HB : hi < 2 ^ 61) by lia. rewrite (Z.mod_small q) by lia.
  destruct (Z.eqb_spec q 0); rewrite Z.mod_small by lia; lia.
Qed.
End Avg.

(** ** The number of segments *)
(** C69. For an estimated number of terms est of size avg, 2^l segments of seg KiB: the least power of two such that the terms fill less than the segments, but at most 2^max_log2_size. *)
Theorem segments_exact : forall (sparse : bool) est avg, 0 <= est -> 0 <= avg ->
  let seg := if sparse then 20 else 200 in let l := est_log2 sparse est avg in
  0 <= l <= Z.of_nat max_log2_size /\
  (l < Z.of_nat max_log2_size -> est * avg < 2 ^ l * (seg * 1024)) /\ (0 < l -> 2 ^ (l - 1) * (seg * 1024) <= est * avg).
Proof.
  intros sparse est avg E A seg l. assert (S : 0 < seg * 1024) by (unfold seg; destruct sparse; lia). assert (EA : 0 <= est * avg) by nia.
  unfold est_log2 in l. fold seg in l. set (n := est * avg / (seg * 1024)) in *. assert (N : 0 <= n) by (apply Z.div_pos; lia).
  assert (D1 : n * (seg * 1024) <= est * avg) by (pose proof (Z.mul_div_le (est * avg) (seg * 1024) S); unfold n; lia).
  assert (D2 : est * avg < (n + 1) * (seg * 1024)) by (pose proof (Z.mul_succ_div_gt (est * avg) (seg * 1024) S); unfold n; lia).
  assert (NB : 0 <= nbits n /\ n < 2 ^ nbits n /\ (0 < nbits n -> 2 ^ (nbits n - 1) <= n)).
  { unfold nbits. destruct (Z.eqb_spec n 0) as [->|NZ]; [lia|]. rewrite Z.abs_eq by exact N. pose proof (Z.log2_spec n ltac:(lia)) as [L1 L2]. pose proof (Z.log2_nonneg n).
    rewrite Z.add_1_r. split; [lia|]. split; [exact L2|]. intros _. replace (Z.succ (Z.log2 n) - 1) with (Z.log2 n) by lia. exact L1. }
  destruct NB as (N0 & N1 & N2). unfold l. clear l. split; [lia|]. split.
  - intros L. replace (Z.min (nbits n) (Z.of_nat max_log2_size)) with (nbits n) by lia. nia.
  - intros L. assert (P : 2 ^ (Z.min (nbits n) (Z.of_nat max_log2_size) - 1) <= 2 ^ (nbits n - 1)) by (apply Z.pow_le_mono_r; lia). specialize (N2 ltac:(lia)). nia.
Qed.

(** * Non-vacuity *)
(** Packed keys and big integers: 8 bytes of key, 16 of coefficient, limbs on the heap for coefficients over 2^5. *)
Definition ex_sizes : sizes Z Z Z := {| bs_key := fun _ => 8; bs_cf := fun c => if Z.abs c <? 6 then 16 else 24; bs_tag := None;
  so_series := 48; so_table := 32; so_term := 32; so_key := 8; so_cf := 16; so_tag := 1 |}.
Example ex_size : exists r, byte_size ex_sizes ex_x r /\ r = 48 + 4 * 32 + 2 * 32 + 40 /\ series_size ex_x = 3%nat /\ s_log2 ex_x = 2%nat /\
  size_reduce ex_sizes 0 (s_tables ex_x) 104.
Proof.
  destruct (byte_size_exact ex_sizes ex_x) as [(r & H) X]. exists r. split; [exact H|]. destruct (X r H) as (_ & -> & _). split; [vm_compute; reflexivity|]. split; [vm_compute; reflexivity|]. split; [vm_compute; reflexivity|].
  rewrite <- (firstn_skipn 1 (s_tables ex_x)). change 104 with (usize (size_block ex_sizes (firstn 1 (s_tables ex_x)) 0 + size_block ex_sizes (skipn 1 (s_tables ex_x)) 0)). apply sr_join; apply sr_run.
Qed.
Example ex_avg : wf exK exS Z_cf es_x /\ wf exK exS Z_cf es_y /\ s_ss es_y = s_ss es_x /\ ~ product_unrep exS (s_ss es_x) es_x es_y /\
  (let draws := [(0, 1); (1, 2); (0, 0); (1, 1); (1, 0); (0, 1); (0, 0); (1, 2); (0, 2); (1, 1)]%nat in
   List.length draws = ntrials /\ (forall p, In p draws -> (fst p < series_size es_x)%nat /\ (snd p < series_size es_y)%nat) /\
   avg_term_size exK Z_cf ex_sizes (s_ss es_x) (terms es_x) (terms es_y) draws = Ok 32).
Proof.
  pose proof ex_estimate as (_ & _ & _ & W1 & W2 & E & N & _). split; [exact W1|]. split; [exact W2|]. split; [exact E|]. split; [exact N|]. cbv zeta. split; [reflexivity|]. split.
  - change (series_size es_x) with 2%nat. change (series_size es_y) with 3%nat. apply Forall_forall. repeat constructor.
  - vm_compute. reflexivity.
Qed.
Example ex_segments : est_log2 true (10 ^ 6) 32 = 11 /\ est_log2 false (10 ^ 6) 32 = 8 /\ est_log2 true 100 32 = 0 /\ est_log2 true (2 ^ 100) 32 = Z.of_nat max_log2_size.
Proof. repeat apply conj; vm_compute; reflexivity. Qed.

Print Assumptions byte_size_exact.
Print Assumptions byte_size_unobservable.
Print Assumptions avg_term_size_exact.
Print Assumptions segments_exact.
