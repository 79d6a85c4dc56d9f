From Coq Require Import ZArith List Bool String Lia Sorted.
From Verif Require Import Base KpackTables KpackModel KpackSpec KpackProofs IntModel IntSpec IntProofs
  SymModel SymSpec SymProofs PMonModel PMonSpec.
Import ListNotations.
Open Scope Z_scope.

(** * Generic facts *)
Fixpoint rfoldi {S : Type} (body : S -> nat -> Z -> res S) (vs : list Z) (i : nat) (st : S) : res S :=
  match vs with
  | [] => Ok st
  | v :: vs' => st' <- body st i v ;; rfoldi body vs' (Datatypes.S i) st'
  end.

Lemma unpack_loop_pure {S} D (body : S -> nat -> Z -> res S) : forall k u vs i st,
  kunpacker_pops D k u = Ok vs -> unpack_loop D k i u body st = rfoldi body vs i st.
Proof.
  induction k as [|k IH]; intros u vs i st H; cbn in *.
  - inversion H; reflexivity.
  - destruct (kunpacker_pop D u) as [[v u']| |] eqn:E; cbn in *; try discriminate.
    destruct (kunpacker_pops D k u') as [ws| |] eqn:E2; cbn in *; try discriminate.
    inversion H; subst. cbn. destruct (body st i v) as [st'| |]; cbn; auto.
Qed.

Lemma lim_pos D s : packable D -> good_size D s -> 1 <= lim D s /\ lim D s < imax (kd_ty D) /\
  imin (kd_ty D) <= lo D s /\ (sgnd (kd_ty D) = true -> imin (kd_ty D) < lo D s) /\ - lim D s <= lo D s <= 0 /\
  Z.of_nat s * lim D s < imax (kd_ty D) /\ (sgnd (kd_ty D) = true -> imin (kd_ty D) < - (Z.of_nat s * lim D s)).
Proof.
  intros HD Hs. pose proof (packable_ok _ HD) as OK. pose proof (facts_of _ _ OK Hs) as F.
  pose proof (f_lim _ _ F). pose proof (klim_range D s OK Hs) as [K1 K2].
  pose proof (L_range D s OK Hs) as LR. pose proof (f_klim _ _ F) as KF.
  pose proof (d_ge2 D s OK Hs) as D2. pose proof (l_type D s OK Hs) as [L1 L2].
  assert (Zs : forall k, Z.of_nat k <= zsum_pow (delta D s) k).
  { induction k as [|k IH]; [cbn; lia|]. cbn [zsum_pow]. rewrite Nat2Z.inj_succ.
    assert (0 <= (delta D s - 1) * zsum_pow (delta D s) k) by (apply Z.mul_nonneg_nonneg; lia). lia. }
  specialize (Zs s).
  assert (B : Z.of_nat s * lim D s <= klim D s).
  { rewrite KF. rewrite Z.mul_comm. apply Z.mul_le_mono_nonneg_l; lia. }
  assert (SL : lim D s <= Z.of_nat s * lim D s).
  { destruct Hs as [Hs1 _]. rewrite <- (Z.mul_1_l (lim D s)) at 1. apply Z.mul_le_mono_nonneg_r; lia. }
  assert (IM : sgnd (kd_ty D) = true -> imin (kd_ty D) = - imax (kd_ty D) - 1) by (unfold imin, imax; intros ->; lia).
  assert (LO : imin (kd_ty D) <= lo D s).
  { unfold lo, imin in *. destruct (sgnd (kd_ty D)); [|lia]. specialize (IM eq_refl).
    unfold imin, imax in *. lia. }
  repeat split; try lia; intro SG; specialize (IM SG); lia.
Qed.

Lemma good_of D n p vs : represents D n p vs -> n <> 0%nat -> good_size D n.
Proof. intros (A & B & _) H. split; lia. Qed.

Lemma rep_unpack D n p vs : packable D -> represents D n p vs ->
  exists u, kunpacker_new D p n = Ok u /\ kunpacker_pops D n u = Ok vs.
Proof.
  intros HD H. pose proof H as (A & B & C & E). destruct n as [|n].
  - destruct vs; [|discriminate]. cbn in E. subst p. cbn. eexists. split; reflexivity.
  - assert (G : good_size D (S n)) by (eapply good_of; eauto).
    pose proof (roundtrip D (S n) (packable_ok _ HD) G vs C A) as R. rewrite <- E in R.
    unfold kunpack in R. destruct (kunpacker_new D p (S n)) as [u| |]; cbn [bind] in R; try discriminate.
    exists u. auto.
Qed.

(** Every compatible value has a representation. *)
Lemma rep_exists D n p : packable D -> good_size D n -> code_ok D n p -> exists vs, represents D n p vs.
Proof.
  intros HD G H. destruct (unpack_pack D n (packable_ok _ HD) G p H) as (vs & E & L & C & P).
  exists vs. repeat split; auto; try (destruct G; lia).
  rewrite (kpack_ok D n (packable_ok _ HD) G) in P by (auto; lia). congruence.
Qed.

Lemma rep_code D n p vs : packable D -> represents D n p vs -> n <> 0%nat -> code_ok D n p.
Proof.
  intros HD H Hn. pose proof (good_of _ _ _ _ H Hn) as G. destruct H as (A & B & C & ->).
  apply kron_range; auto using packable_ok. lia.
Qed.

Lemma rep_unique D n p vs ws : packable D -> represents D n p vs -> represents D n p ws -> vs = ws.
Proof.
  intros HD H1 H2. destruct n.
  - destruct H1 as [L1 _], H2 as [L2 _]. destruct vs, ws; auto; discriminate.
  - pose proof (good_of _ _ _ _ H1 (Nat.neq_succ_0 _)) as G.
    destruct H1 as (A & B & C & E), H2 as (A' & B' & C' & E').
    eapply (kron_inj D (S n)); eauto using packable_ok. congruence.
Qed.

(** The outcome of packing a full vector. *)
Definition comp_okb (D : kdata) (s : nat) (v : Z) : bool := (lo D s <=? v) && (v <=? lim D s).
Lemma comp_okb_iff D s v : comp_okb D s v = true <-> comp_ok D s v.
Proof. unfold comp_okb, comp_ok. rewrite andb_true_iff, !Z.leb_le. reflexivity. Qed.

Lemma all_okb_iff D s vs : forallb (comp_okb D s) vs = true <-> Forall (comp_ok D s) vs.
Proof.
  rewrite forallb_forall, Forall_forall. split; intros H x I; apply comp_okb_iff; auto.
Qed.

Definition kp0 (n : nat) : kpacker := KPacker 0 1 0 n.

Lemma kp0_pstate D n : kp0 n = pstate D n [].
Proof. unfold kp0, pstate. cbn. reflexivity. Qed.

Lemma new_cases D n : packable D ->
  kpacker_new D n = if (max_size D <? n)%nat then Throw overflow_error else Ok (kp0 n).
Proof. intros HD. rewrite kpacker_new_exact_lemma by exact HD. reflexivity. Qed.

Lemma push_all_outcome D n ws : packable D -> (n <= max_size D)%nat -> List.length ws = n ->
  kpacker_push_all D (kp0 n) ws = if forallb (comp_okb D n) ws then Ok (pstate D n ws) else Throw overflow_error.
Proof.
  intros HD Hn Hl. destruct n as [|n].
  - destruct ws; [|discriminate]. cbn. rewrite kp0_pstate with (D := D). reflexivity.
  - assert (G : good_size D (S n)) by (split; lia). pose proof (packable_ok _ HD) as OK.
    rewrite (kp0_pstate D).
    destruct (push_all_cases D (S n) OK G ws []) as [(A & B & C)|[(us & w & rest & E & A & B & L & C)|(us & w & rest & E & A & B & C)]];
      [constructor|cbn; lia|..].
    + rewrite C. apply all_okb_iff in A. rewrite A. reflexivity.
    + rewrite C. destruct (forallb (comp_okb D (S n)) ws) eqn:F; auto.
      apply all_okb_iff in F. rewrite E in F. apply Forall_app in F as [_ F]. inversion F; subst. contradiction.
    + exfalso. subst ws. rewrite app_length in Hl. cbn in *. lia.
Qed.

Lemma push_all_outcome_weak D n ws : packable D -> (n <= max_size D)%nat -> (List.length ws <= n)%nat ->
  kpacker_push_all D (kp0 n) ws = if forallb (comp_okb D n) ws then Ok (pstate D n ws) else Throw overflow_error.
Proof.
  intros HD Hn Hl. destruct n as [|n].
  - destruct ws; [|cbn in Hl; lia]. cbn. rewrite kp0_pstate with (D := D). reflexivity.
  - assert (G : good_size D (S n)) by (split; lia). pose proof (packable_ok _ HD) as OK.
    rewrite (kp0_pstate D).
    destruct (push_all_cases D (S n) OK G ws []) as [(A & B & C)|[(us & w & rest & E & A & B & L & C)|(us & w & rest & E & A & B & C)]];
      [constructor|cbn; lia|..].
    + rewrite C. apply all_okb_iff in A. rewrite A. reflexivity.
    + rewrite C. destruct (forallb (comp_okb D (S n)) ws) eqn:F; auto.
      apply all_okb_iff in F. rewrite E in F. apply Forall_app in F as [_ F]. inversion F; subst. contradiction.
    + exfalso. subst ws. rewrite app_length in Hl. cbn in *. lia.
Qed.

Lemma pstate_rep D n ws : (n <= max_size D)%nat -> List.length ws = n -> forallb (comp_okb D n) ws = true ->
  represents D n (kpacker_get (pstate D n ws)) ws.
Proof. intros A B C. apply all_okb_iff in C. repeat split; auto. Qed.

Lemma pstate_get D n ws : kpacker_get (pstate D n ws) = kron (delta D n) ws.
Proof. reflexivity. Qed.

Lemma rfold_app {A S} (f : S -> A -> res S) l1 : forall l2 s,
  rfold f (l1 ++ l2) s = (s' <- rfold f l1 s ;; rfold f l2 s').
Proof.
  induction l1; intros; cbn; auto. destruct (f s a); cbn; auto.
Qed.

Lemma push_all_app D ws : forall vs p, kpacker_push_all D p (ws ++ vs) =
  (p' <- kpacker_push_all D p ws ;; kpacker_push_all D p' vs).
Proof. intros. apply rfold_app. Qed.

Fixpoint mapi {A B} (g : nat -> A -> B) (i : nat) (l : list A) : list B :=
  match l with [] => [] | x :: l' => g i x :: mapi g (S i) l' end.

Lemma mapi_length {A B} (g : nat -> A -> B) l : forall i, List.length (mapi g i l) = List.length l.
Proof. induction l; intros; cbn; auto. Qed.

Lemma push_loop D (g : nat -> Z -> Z) : forall vs i kp,
  rfoldi (fun kp i tmp => kpacker_push D kp (g i tmp)) vs i kp = kpacker_push_all D kp (mapi g i vs).
Proof.
  induction vs; intros; cbn; auto. unfold kpacker_push_all. cbn.
  destruct (kpacker_push D kp (g i a)); cbn; auto. apply IHvs.
Qed.

Lemma rfoldi_ext {S} (f g : S -> nat -> Z -> res S) : forall vs i st,
  (forall s j v, In v vs -> f s j v = g s j v) -> rfoldi f vs i st = rfoldi g vs i st.
Proof.
  induction vs; intros; cbn; auto. rewrite H by (left; auto). destruct (g st i a); cbn; auto.
  apply IHvs. intros; apply H; right; auto.
Qed.

(** * Construction *)
Lemma push_cast_ok D u vs : packable D -> integral_type u -> Forall (has_value u) vs ->
  forall kp, Forall (fun v => in_ity (kd_ty D) v = true) vs ->
  pm_push_cast D u kp vs = kpacker_push_all D kp vs.
Proof.
  intros HD Hu Hv. assert (Ht : integral_type (kd_ty D)).
  { destruct HD as [->|[->|[->| ->]]]; right; [exists 32, true|exists 32, false|exists 64, true|exists 64, false]; cbn; auto 10. }
  induction Hv as [|v vs Hvv Hvs IH]; intros kp F; [reflexivity|].
  inversion F; subst. cbn. rewrite safe_cast_int_spec by assumption. rewrite H1. cbn.
  unfold kpacker_push_all. cbn. destruct (kpacker_push D kp v); cbn; auto. apply IH; auto.
Qed.

Lemma D_integral D : packable D -> integral_type (kd_ty D).
Proof.
  intros HD. destruct HD as [->|[->|[->| ->]]]; right; [exists 32, true|exists 32, false|exists 64, true|exists 64, false]; cbn; auto 10.
Qed.

Lemma comp_in_ity D n v : packable D -> good_size D n -> comp_ok D n v -> in_ity (kd_ty D) v = true.
Proof.
  intros HD G C. pose proof (lim_pos D n HD G) as L. unfold comp_ok in C. unfold in_ity.
  apply andb_true_iff. rewrite !Z.leb_le. lia.
Qed.

Lemma push_cast_fail D u n vs : packable D -> integral_type u -> Forall (has_value u) vs ->
  (n <= max_size D)%nat -> (List.length vs <= n)%nat -> forallb (comp_okb D n) vs = false ->
  pm_push_cast D u (kp0 n) vs = Throw overflow_error \/ pm_push_cast D u (kp0 n) vs = Throw safe_cast_failure.
Proof.
  intros HD Hu Hv Hn Hl Hf.
  assert (G : good_size D n).
  { destruct vs; [discriminate|]. cbn in Hl. split; lia. }
  assert (Gen : forall done, Forall (comp_ok D n) done -> (List.length done + List.length vs <= n)%nat ->
    pm_push_cast D u (pstate D n done) vs = Throw overflow_error \/
    pm_push_cast D u (pstate D n done) vs = Throw safe_cast_failure).
  { clear Hl. induction Hv as [|v vs Hvv Hvs IH]; intros done Hd Hl; [discriminate|].
    cbn [pm_push_cast]. rewrite safe_cast_int_spec by auto using D_integral.
    destruct (in_ity (kd_ty D) v); cbn [bind]; auto.
    cbn [forallb] in Hf. cbn [List.length] in Hl. pose proof (packable_ok _ HD) as OK.
    destruct (comp_okb D n v) eqn:E; cbn in Hf.
    - apply comp_okb_iff in E. rewrite push_ok by (auto; lia). cbn [bind].
      apply IH; auto. apply Forall_app; auto. rewrite app_length; cbn; lia.
    - assert (~ comp_ok D n v) by (rewrite <- comp_okb_iff; congruence).
      rewrite push_bad by (auto; lia). cbn. auto. }
  rewrite (kp0_pstate D). apply Gen; auto.
Qed.

(** What the constructor does on a vector of length n. *)
Lemma of_vec D u vs n : packable D -> integral_type u -> Forall (has_value u) vs -> List.length vs = n ->
  (representable D vs -> (kp <- kpacker_new D n ;; kp' <- pm_push_cast D u kp vs ;; Ok (kpacker_get kp'))
                          = Ok (kron (delta D n) vs)) /\
  (~ representable D vs ->
     let r := (kp <- kpacker_new D n ;; kp' <- pm_push_cast D u kp vs ;; Ok (kpacker_get kp')) in
     r = Throw overflow_error \/ r = Throw safe_cast_failure).
Proof.
  intros HD Hu Hv Hl. rewrite new_cases by exact HD. split.
  - intros [R1 R2]. rewrite Hl in *. replace (max_size D <? n)%nat with false by (symmetry; apply Nat.ltb_ge; lia).
    cbn [bind]. rewrite push_cast_ok; auto.
    + rewrite push_all_outcome by auto. apply all_okb_iff in R2. rewrite R2. reflexivity.
    + destruct n; [destruct vs; [constructor|discriminate]|].
      assert (G : good_size D (S n)) by (split; lia).
      eapply Forall_impl; [|exact R2]. intros. eapply comp_in_ity; eauto.
  - intros NR. cbn zeta. destruct (Nat.ltb_spec (max_size D) n); cbn [bind]; auto.
    assert (F : forallb (comp_okb D n) vs = false).
    { destruct (forallb (comp_okb D n) vs) eqn:F; auto. exfalso. apply NR. split; [lia|]. rewrite Hl. apply all_okb_iff. exact F. }
    destruct (push_cast_fail D u n vs HD Hu Hv) as [-> | ->]; auto; lia.
Qed.

(** * Compatibility *)
Lemma compat_iff D p ss : packable D ->
  exists b, pm_compatible D p ss = Ok b /\ (b = true <-> exists vs, represents D (List.length ss) p vs).
Proof.
  intros HD. unfold pm_compatible. pose proof (packable_ok _ HD) as OK.
  destruct (List.length ss) as [|n] eqn:E.
  - exists (p =? 0). split; auto. rewrite Z.eqb_eq. split.
    + intros ->. exists []. repeat split; auto. cbn; lia.
    + intros (vs & L & _ & _ & ->). destruct vs; [reflexivity|discriminate].
  - unfold kpack_max_size. 
    assert (LM : List.length (kd_deltas D) = max_size D).
    { unfold max_size. destruct HD as [->|[->|[->| ->]]]; reflexivity. }
    rewrite LM. destruct (Nat.ltb_spec (max_size D) (S n)).
    + exists false. split; auto. split; [discriminate|]. intros (vs & _ & B & _). lia.
    + assert (G : good_size D (S n)) by (split; lia).
      rewrite get_klims by auto. cbn [bind]. eexists. split; [reflexivity|].
      rewrite andb_true_iff, !Z.leb_le. split.
      * intros H1. apply rep_exists; auto.
      * intros (vs & R). exact (rep_code _ _ _ _ HD R (Nat.neq_succ_0 _)).
Qed.

(** * Multiplication *)
Lemma vadd_length vs ws : List.length vs = List.length ws -> List.length (vadd vs ws) = List.length vs.
Proof. intros. unfold vadd. rewrite map_length, combine_length. lia. Qed.

Lemma mul_ok D ss p q vs ws : packable D -> represents D (List.length ss) p vs -> represents D (List.length ss) q ws ->
  Forall (comp_ok D (List.length ss)) (vadd vs ws) ->
  exists r, pm_mul D p q ss = Ok r /\ represents D (List.length ss) r (vadd vs ws).
Proof.
  intros HD Hp Hq C. pose proof Hp as (A & B & _ & E). pose proof Hq as (A' & _ & _ & E').
  assert (R : represents D (List.length ss) (p + q) (vadd vs ws)).
  { repeat split; auto.
    - rewrite vadd_length; lia.
    - rewrite E, E'. symmetry. apply kron_add. lia. }
  exists (p + q). split; auto. unfold pm_mul.
  destruct (Nat.eq_dec (List.length ss) 0) as [Z0|NZ].
  - rewrite Z0 in *. destruct R as (L & _ & _ & ->). destruct (vadd vs ws); [|discriminate].
    cbn. unfold arith, in_ity. destruct HD as [->|[->|[->| ->]]]; reflexivity.
  - pose proof (good_of _ _ _ _ R NZ) as G. apply arith_ok.
    + apply bits_gt1 with (s := List.length ss); auto using packable_ok.
    + apply (code_type D (List.length ss)); auto using packable_ok. eapply rep_code; eauto.
Qed.

(** * Degree *)
Lemma sum_bounds D n vs : Forall (comp_ok D n) vs -> 1 <= lim D n -> - lim D n <= lo D n <= 0 ->
  Z.of_nat (List.length vs) * lo D n <= vsum vs <= Z.of_nat (List.length vs) * lim D n.
Proof.
  intros H L1 L2. induction H; [cbn; lia|].
  cbn [vsum fold_right List.length]. fold (vsum l). rewrite Nat2Z.inj_succ. unfold comp_ok in H. lia.
Qed.

Lemma partial_ok D n k z : packable D -> good_size D n -> (k <= n)%nat ->
  Z.of_nat k * lo D n <= z <= Z.of_nat k * lim D n -> arith (kd_ty D) z = Ok z.
Proof.
  intros HD G Hk Hz. pose proof (lim_pos D n HD G) as (L1 & L2 & L3 & L4 & L5 & L6 & L7).
  apply arith_ok; [apply bits_gt1 with (s := n); auto using packable_ok|].
  assert (Z.of_nat k * lim D n <= Z.of_nat n * lim D n) by (apply Z.mul_le_mono_nonneg_r; lia).
  unfold lo in *. destruct (sgnd (kd_ty D)) eqn:S.
  - specialize (L7 eq_refl). lia.
  - unfold imin. rewrite S. lia.
Qed.

Lemma degree_loop D n : packable D -> good_size D n -> forall vs i acc k,
  Forall (comp_ok D n) vs -> (k + List.length vs <= n)%nat ->
  Z.of_nat k * lo D n <= acc <= Z.of_nat k * lim D n ->
  rfoldi (fun retval _ tmp => arith (kd_ty D) (retval + tmp)) vs i acc = Ok (acc + vsum vs).
Proof.
  intros HD G. induction vs as [|v vs IH]; intros i acc k F L A.
  - cbn. f_equal. lia.
  - inversion F; subst. cbn [List.length] in L. unfold comp_ok in H1.
    cbn [rfoldi]. rewrite (partial_ok D n (S k)); auto; try lia.
    cbn [bind]. rewrite (IH _ _ (S k)); auto; try lia. cbn [vsum fold_right]. fold (vsum vs). f_equal. lia.
Qed.

Lemma degree_ok D ss p vs : packable D -> represents D (List.length ss) p vs -> pm_degree D p ss = Ok (vsum vs).
Proof.
  intros HD R. destruct (rep_unpack _ _ _ _ HD R) as (u & E & P).
  unfold pm_degree. rewrite E. cbn [bind]. rewrite (unpack_loop_pure _ _ _ _ _ _ _ P).
  destruct vs as [|v vs]; [reflexivity|].
  assert (G : good_size D (List.length ss)).
  { apply (good_of _ _ _ _ R). destruct R as [L _]. cbn in L. lia. }
  destruct R as (L & _ & C & _).
  rewrite (degree_loop D (List.length ss) HD G _ _ _ 0); auto; lia.
Qed.

Lemma vsum_app a b : vsum (a ++ b) = vsum a + vsum b.
Proof.
  unfold vsum. induction a as [|x a IH]; [reflexivity|]. cbn [app fold_right]. rewrite IH.
  rewrite Z.add_assoc. reflexivity.
Qed.

Lemma vsum_vadd : forall vs ws, List.length vs = List.length ws -> vsum (vadd vs ws) = vsum vs + vsum ws.
Proof.
  induction vs as [|v vs IH]; intros [|w ws] L; try discriminate; [reflexivity|].
  cbn [List.length] in L. injection L as L. specialize (IH ws L). unfold vsum, vadd in *.
  cbn [combine map fold_right fst snd]. rewrite IH. lia.
Qed.

(** select with an offset *)
Definition select_from {A : Type} (keep : nat -> bool) (i : nat) (l : list A) : list A :=
  map snd (filter (fun p => keep (fst p)) (combine (seq i (List.length l)) l)).

Lemma select_from_cons {A} keep i (x : A) l :
  select_from keep i (x :: l) = if keep i then x :: select_from keep (S i) l else select_from keep (S i) l.
Proof. unfold select_from. cbn. destruct (keep i); reflexivity. Qed.

Lemma select_from_ext {A} k1 k2 (l : list A) : forall i, (forall j, (i <= j)%nat -> k1 j = k2 j) ->
  select_from k1 i l = select_from k2 i l.
Proof.
  induction l; intros i H; [reflexivity|]. rewrite !select_from_cons. rewrite H by lia. rewrite (IHl (S i)) by (intros; apply H; lia). reflexivity.
Qed.

Lemma select_from_none {A} keep (l : list A) : forall i, (forall j, (i <= j)%nat -> keep j = false) -> select_from keep i l = [].
Proof. induction l; intros i H; [reflexivity|]. rewrite select_from_cons, H by lia. apply IHl. intros; apply H; lia. Qed.

Lemma select_from_all {A} keep (l : list A) : forall i, (forall j, (i <= j)%nat -> keep j = true) -> select_from keep i l = l.
Proof. induction l; intros i H; [reflexivity|]. rewrite select_from_cons, H by lia. f_equal. apply IHl. intros; apply H; lia. Qed.

Lemma select_Forall {A} (P : A -> Prop) keep l : forall i, Forall P l -> Forall P (select_from keep i l).
Proof.
  induction l; intros i H; [constructor|]. rewrite select_from_cons. inversion H; subst. destruct (keep i); auto.
Qed.

Lemma select_len {A} keep (l : list A) : forall i, (List.length (select_from keep i l) <= List.length l)%nat.
Proof. induction l; intros i; [cbn; lia|]. rewrite select_from_cons. specialize (IHl (S i)). destruct (keep i); cbn; lia. Qed.

Lemma sorted_gt x l : StronglySorted lt (x :: l) -> StronglySorted lt l /\ (forall y, In y l -> (x < y)%nat).
Proof. intros H. inversion H; subst. split; auto. rewrite Forall_forall in *. auto. Qed.

Lemma mem_in i si : mem i si = true <-> In i si.
Proof.
  unfold mem. rewrite existsb_exists. split.
  - intros (x & I & E). apply Nat.eqb_eq in E. subst. auto.
  - intros I. exists i. split; auto. apply Nat.eqb_refl.
Qed.

Lemma mem_small i si : (forall y, In y si -> (i < y)%nat) -> mem i si = false.
Proof. intros H. destruct (mem i si) eqn:E; auto. apply mem_in in E. apply H in E. lia. Qed.

Lemma p_degree_loop D n : packable D -> good_size D n -> forall vs u i si acc k,
  kunpacker_pops D (List.length vs) u = Ok vs ->
  Forall (comp_ok D n) vs -> (k + List.length vs <= n)%nat ->
  StronglySorted lt si -> (forall y, In y si -> (i <= y)%nat) ->
  Z.of_nat k * lo D n <= acc <= Z.of_nat k * lim D n ->
  pm_p_degree_loop D (List.length vs) i u si acc = Ok (acc + vsum (select_from (fun j => mem j si) i vs)).
Proof.
  intros HD G. pose proof (lim_pos D n HD G) as (L1 & L2 & L3 & L4 & L5 & L6 & L7).
  induction vs as [|v vs IH]; intros u i si acc k P F L S Hsi A.
  - cbn. f_equal. lia.
  - cbn [List.length] in *. cbn [kunpacker_pops] in P.
    destruct (kunpacker_pop D u) as [[v0 u']| |] eqn:E; cbn in P; try discriminate.
    destruct (kunpacker_pops D (List.length vs) u') as [ws| |] eqn:E2; cbn in P; try discriminate.
    inversion P; subst v0 ws. inversion F; subst.
    cbn [pm_p_degree_loop]. destruct si as [|j si].
    + rewrite select_from_none by reflexivity. cbn. f_equal. lia.
    + rewrite E. cbn [bind]. pose proof (sorted_gt _ _ S) as [S' Hj].
      rewrite select_from_cons. unfold comp_ok in H1.
      destruct (Nat.eqb_spec i j) as [->|Hne].
      * rewrite (partial_ok D n (Datatypes.S k)); auto; try lia. cbn [bind].
        rewrite (IH _ _ _ _ (Datatypes.S k)); auto; try lia; try (intros y Hy; apply Hj in Hy; lia).
        assert (mem j (j :: si) = true) as -> by (apply mem_in; left; auto).
        cbn [vsum fold_right]. fold (vsum (select_from (fun j0 => mem j0 (j :: si)) (Datatypes.S j) vs)).
        rewrite (select_from_ext (fun j0 => mem j0 (j :: si)) (fun j0 => mem j0 si)).
        -- f_equal. lia.
        -- intros q Hq. unfold mem. cbn. destruct (Nat.eqb_spec q j); [lia|]. reflexivity.
      * assert (i < j)%nat by (assert (i <= j)%nat by (apply Hsi; left; auto); lia).
        rewrite mem_small by (intros y [->|Hy]; [lia|apply Hj in Hy; lia]).
        apply (IH _ _ _ _ k); auto; try lia. intros y [->|Hy]; [lia|apply Hj in Hy; lia].
Qed.

Lemma p_degree_ok D ss p vs si : packable D -> represents D (List.length ss) p vs -> StronglySorted lt si ->
  pm_p_degree D p si ss = Ok (vsum (select (fun j => mem j si) vs)).
Proof.
  intros HD R S. destruct (rep_unpack _ _ _ _ HD R) as (u & E & P).
  unfold pm_p_degree. rewrite E. cbn [bind].
  pose proof R as (L & _ & C & _).
  destruct vs as [|v vs].
  - cbn in L. rewrite <- L. reflexivity.
  - assert (G : good_size D (List.length ss)) by (apply (good_of _ _ _ _ R); cbn in L; lia).
    rewrite <- L in P at 1. rewrite <- L at 1.
    rewrite (p_degree_loop D (List.length ss) HD G _ _ _ _ _ 0); auto; lia.
Qed.

(** * Exponentiation *)
Lemma pow_loop D n e : packable D -> good_size D n -> forall vs i done,
  Forall (comp_ok D n) done -> (List.length done + List.length vs <= n)%nat ->
  rfoldi (fun kp _ tmp => if in_ity (kd_ty D) (tmp * e) then kpacker_push D kp (tmp * e) else Throw overflow_error)
         vs i (pstate D n done) = kpacker_push_all D (pstate D n done) (vscale e vs).
Proof.
  intros HD G. pose proof (packable_ok _ HD) as OK.
  induction vs as [|v vs IH]; intros i done F L; [reflexivity|]. cbn [List.length] in L.
  cbn [rfoldi vscale map]. unfold kpacker_push_all. cbn [rfold].
  destruct (comp_okb D n (v * e)) eqn:E.
  - apply comp_okb_iff in E. rewrite (comp_in_ity _ _ _ HD G E). rewrite push_ok by (auto; lia). cbn [bind].
    apply IH; [apply Forall_app; auto|rewrite app_length; cbn; lia].
  - assert (NC : ~ comp_ok D n (v * e)) by (rewrite <- comp_okb_iff; congruence).
    rewrite push_bad by (auto; lia). destruct (in_ity (kd_ty D) (v * e)); reflexivity.
Qed.

Definition fits (D : kdata) (n : nat) (ws : list Z) : bool := forallb (comp_okb D n) ws.

Lemma pow_ok D ss p vs e : packable D -> represents D (List.length ss) p vs ->
  pm_pow D p (Some e) ss =
    if fits D (List.length ss) (vscale e vs) then Ok (kron (delta D (List.length ss)) (vscale e vs)) else Throw overflow_error.
Proof.
  intros HD R. destruct (rep_unpack _ _ _ _ HD R) as (u & E & P).
  pose proof R as (L & B & C & _).
  unfold pm_pow. rewrite E. cbn [bind]. rewrite new_cases by auto.
  replace (max_size D <? List.length ss)%nat with false by (symmetry; apply Nat.ltb_ge; lia).
  cbn [bind]. rewrite (unpack_loop_pure _ _ _ _ _ _ _ P).
  destruct vs as [|v vs].
  - cbn in L. rewrite <- L. cbn. reflexivity.
  - assert (G : good_size D (List.length ss)) by (apply (good_of _ _ _ _ R); cbn in L; lia).
    rewrite (kp0_pstate D). rewrite pow_loop; auto; [|cbn [List.length] in *; lia].
    rewrite <- (kp0_pstate D). rewrite push_all_outcome; auto; [|unfold vscale; rewrite map_length; lia].
    unfold fits. destruct (forallb (comp_okb D (List.length ss)) (vscale e (v :: vs))); reflexivity.
Qed.

(** * Trimming *)
Definition trim_flags (v vs : list Z) : list Z := map (fun p => if snd p =? 0 then fst p else 0) (combine v vs).

Lemma skipn_mid {A} (a : list A) x b : skipn (S (List.length a)) (a ++ x :: b) = b.
Proof. induction a; [reflexivity|]. exact IHa. Qed.
Lemma firstn_mid {A} (a : list A) b : firstn (List.length a) (a ++ b) = a.
Proof. induction a; [destruct b; reflexivity|]. cbn. f_equal. exact IHa. Qed.
Lemma nth_error_mid {A} (a : list A) x b : nth_error (a ++ x :: b) (List.length a) = Some x.
Proof. induction a; [reflexivity|]. exact IHa. Qed.

Lemma upd_nth_app {A} (a : list A) x b f : upd_nth (a ++ x :: b) (List.length a) f = Ok (a ++ f x :: b).
Proof. unfold upd_nth. rewrite nth_error_mid, firstn_mid, skipn_mid. reflexivity. Qed.

Lemma identify_loop : forall vs v done, List.length v = List.length vs ->
  rfoldi (fun v i tmp => if negb (tmp =? 0) then upd_nth v i (fun _ => 0) else Ok v) vs (List.length done) (done ++ v)
  = Ok (done ++ trim_flags v vs).
Proof.
  induction vs as [|x vs IH]; intros [|f v] done L; try discriminate; [reflexivity|].
  cbn [rfoldi]. cbn in L.
  destruct (x =? 0) eqn:E; cbn [negb].
  - cbn [bind]. specialize (IH v (done ++ [f])). rewrite app_length in IH. cbn in IH. rewrite Nat.add_1_r in IH.
    rewrite <- app_assoc in IH. cbn in IH. rewrite IH by lia.
    unfold trim_flags. cbn. rewrite E. rewrite <- app_assoc. reflexivity.
  - rewrite upd_nth_app. cbn [bind]. specialize (IH v (done ++ [0])). rewrite app_length in IH. cbn in IH. rewrite Nat.add_1_r in IH.
    rewrite <- app_assoc in IH. cbn in IH. rewrite IH by lia.
    unfold trim_flags. cbn. rewrite E. rewrite <- app_assoc. reflexivity.
Qed.

Lemma identify_ok D ss p vs v : packable D -> represents D (List.length ss) p vs -> List.length v = List.length ss ->
  pm_trim_identify D v p ss = Ok (trim_flags v vs).
Proof.
  intros HD R L. destruct (rep_unpack _ _ _ _ HD R) as (u & E & P).
  unfold pm_trim_identify. rewrite E. cbn [bind]. rewrite (unpack_loop_pure _ _ _ _ _ _ _ P).
  apply (identify_loop vs v []). destruct R as (L' & _). lia.
Qed.

Lemma trim_loop D : forall vs i si kp, StronglySorted lt si -> (forall y, In y si -> (i <= y)%nat) ->
  exists rest,
  rfoldi (fun '(kp, si_it) i tmp =>
         match si_it with
         | j :: si' =>
             if (j =? i)%nat then Ok (kp, si') else kp' <- kpacker_push D kp tmp ;; Ok (kp', si_it)
         | [] => kp' <- kpacker_push D kp tmp ;; Ok (kp', si_it)
         end) vs i (kp, si) =
  (kp' <- kpacker_push_all D kp (select_from (fun j => negb (mem j si)) i vs) ;; Ok (kp', rest)).
Proof.
  induction vs as [|v vs IH]; intros i si kp S H.
  - exists si. reflexivity.
  - cbn [rfoldi]. rewrite select_from_cons. destruct si as [|j si].
    + change (negb (mem i [])) with true. cbv iota.
      destruct (kpacker_push D kp v) as [kp'| |] eqn:E.
      * cbn [bind]. destruct (IH (Datatypes.S i) [] kp') as (rest & R); [constructor|intros y []|].
        exists rest. rewrite R. unfold kpacker_push_all. cbn [rfold]. rewrite E. reflexivity.
      * exists []. unfold kpacker_push_all. cbn [rfold]. rewrite E. reflexivity.
      * exists []. unfold kpacker_push_all. cbn [rfold]. rewrite E. reflexivity.
    + pose proof (sorted_gt _ _ S) as [S' Hj].
      destruct (Nat.eqb_spec j i) as [->|Hne].
      * cbn [bind]. assert (mem i (i :: si) = true) as -> by (apply mem_in; left; auto). cbn [negb].
        destruct (IH (Datatypes.S i) si kp S') as (rest & R).
        { intros y Hy. apply Hj in Hy. lia. }
        exists rest. rewrite R.
        rewrite (select_from_ext (fun j => negb (mem j (i :: si))) (fun j => negb (mem j si))); [reflexivity|].
        intros q Hq. f_equal. unfold mem. cbn. destruct (Nat.eqb_spec q i); [lia|]. reflexivity.
      * assert (i < j)%nat by (assert (i <= j)%nat by (apply H; left; auto); lia).
        rewrite mem_small by (intros y [->|Hy]; [lia|apply Hj in Hy; lia]). cbn [negb].
        destruct (kpacker_push D kp v) as [kp'| |] eqn:E.
        -- cbn [bind]. destruct (IH (Datatypes.S i) (j :: si) kp' S) as (rest & R).
           { intros y [->|Hy]; [lia|apply Hj in Hy; lia]. }
           exists rest. rewrite R. unfold kpacker_push_all. cbn [rfold]. rewrite E. reflexivity.
        -- exists []. unfold kpacker_push_all. cbn [rfold]. rewrite E. reflexivity.
        -- exists []. unfold kpacker_push_all. cbn [rfold]. rewrite E. reflexivity.
Qed.

Lemma lim_mono D a b : packable D -> good_size D a -> good_size D b -> (a <= b)%nat -> lim D b <= lim D a.
Proof.
  intros HD.
  assert (K : forallb (fun b => forallb (fun a => lim D b <=? lim D a) (seq 1 b)) (seq 1 (max_size D)) = true).
  { destruct HD as [->|[->|[->| ->]]]; vm_compute; reflexivity. }
  intros [Ha1 Ha2] [Hb1 Hb2] Hab. rewrite forallb_forall in K. specialize (K b). rewrite forallb_forall in K.
  apply Z.leb_le. apply K; apply in_seq; lia.
Qed.

Lemma comp_mono D a b v : packable D -> good_size D a -> good_size D b -> (a <= b)%nat -> comp_ok D b v -> comp_ok D a v.
Proof.
  intros HD Ga Gb H. pose proof (lim_mono D a b HD Ga Gb H). unfold comp_ok, lo. destruct (sgnd (kd_ty D)); lia.
Qed.

Lemma select_from_len {A} (l : list A) : forall i si, StronglySorted lt si ->
  (forall y, In y si -> (i <= y < i + List.length l)%nat) ->
  List.length (select_from (fun j => negb (mem j si)) i l) = (List.length l - List.length si)%nat.
Proof.
  induction l as [|x l IH]; intros i si S H.
  - cbn. destruct si; auto.
  - rewrite select_from_cons. destruct si as [|j si].
    + change (negb (mem i [])) with true. cbv iota. cbn [List.length]. rewrite IH; [cbn; lia|constructor|intros y []].
    + pose proof (sorted_gt _ _ S) as [S' Hj].
      destruct (Nat.eq_dec j i) as [->|Hne].
      * assert (mem i (i :: si) = true) as -> by (apply mem_in; left; auto). cbn [negb List.length].
        rewrite (select_from_ext _ (fun j => negb (mem j si))).
        -- rewrite IH; auto. intros y Hy. specialize (Hj _ Hy). specialize (H y (or_intror Hy)). cbn in H. lia.
        -- intros q Hq. f_equal. unfold mem. cbn. destruct (Nat.eqb_spec q i); [lia|]. reflexivity.
      * assert (i < j)%nat by (assert (i <= j)%nat by (apply H; left; auto); lia).
        rewrite mem_small by (intros y [->|Hy]; [lia|apply Hj in Hy; lia]). cbn [negb List.length].
        assert (B : forall y, In y (j :: si) -> (Datatypes.S i <= y < Datatypes.S i + List.length l)%nat).
        { intros y Hy. pose proof (H _ Hy). cbn [List.length] in H1. destruct Hy as [->|Hy]; [lia|apply Hj in Hy; lia]. }
        rewrite IH; auto. cbn [List.length].
        assert (Datatypes.S (List.length si) <= List.length l)%nat; [|lia].
        { assert (NoDup (j :: si)).
          { clear -S. induction S; constructor; auto. intro I. rewrite Forall_forall in H. apply H in I. lia. }
          assert (incl (j :: si) (seq (Datatypes.S i) (List.length l))).
          { intros y Hy. apply in_seq. apply B. exact Hy. }
          pose proof (NoDup_incl_length H1 H2). rewrite seq_length in H3. cbn in H3. exact H3. }
Qed.

Lemma trim_ok D ss p vs si : packable D -> represents D (List.length ss) p vs ->
  StronglySorted lt si -> (forall y, In y si -> (y < List.length ss)%nat) ->
  exists r, pm_trim D p si ss = Ok r /\
    represents D (List.length ss - List.length si) r (select (fun j => negb (mem j si)) vs).
Proof.
  intros HD R S H. destruct (rep_unpack _ _ _ _ HD R) as (u & E & P).
  pose proof R as (L & B & C & _).
  set (n := List.length ss) in *. set (n' := (n - List.length si)%nat).
  unfold pm_trim. fold n. rewrite E. cbn [bind]. rewrite new_cases by auto. fold n'.
  replace (max_size D <? n')%nat with false by (symmetry; apply Nat.ltb_ge; lia).
  cbn [bind]. rewrite (unpack_loop_pure _ _ _ _ _ _ _ P).
  destruct (trim_loop D vs 0 si (kp0 n') S ltac:(intros; lia)) as (rest & T).
  unfold symbol_idx_set, symbol_idx in *. rewrite T.
  set (ws := select_from (fun j => negb (mem j si)) 0 vs).
  assert (Lw : List.length ws = n').
  { unfold ws. rewrite select_from_len; auto; [lia|]. intros y Hy. apply H in Hy. lia. }
  rewrite push_all_outcome; auto; try lia.
  assert (Fw : forallb (comp_okb D n') ws = true).
  { apply all_okb_iff. destruct (Nat.eq_dec n' 0) as [Z0|NZ].
    - rewrite Z0 in Lw. destruct ws; [constructor|discriminate].
    - assert (Forall (comp_ok D n) ws) by (apply select_Forall; exact C).
      eapply Forall_impl; [|exact H0]. intros a Ha. eapply comp_mono; [exact HD| |  | |exact Ha]; try (split; lia). lia. }
  rewrite Fw. cbn [bind]. eexists. split; [reflexivity|].
  apply pstate_rep; auto. lia.
Qed.

(** * Differentiation and integration *)
Lemma set_at_app a x y b : set_at (List.length a) y (a ++ x :: b) = a ++ y :: b.
Proof. unfold set_at. rewrite firstn_mid, skipn_mid. reflexivity. Qed.

Lemma diff_loop_skip D idx : forall vs i re kp, (forall j, (i <= j < i + List.length vs)%nat -> j <> idx) ->
  rfoldi (fun '(ret_exp, kp) i tmp =>
         '(ret_exp', tmp') <-
           (if (i =? idx)%nat && negb (tmp =? 0)
            then t <- arith (kd_ty D) (tmp - 1) ;; Ok (tmp, t)
            else Ok (ret_exp, tmp)) ;;
         kp' <- kpacker_push D kp tmp' ;;
         Ok (ret_exp', kp')) vs i (re, kp) = (kp' <- kpacker_push_all D kp vs ;; Ok (re, kp')).
Proof.
  induction vs as [|v vs IH]; intros i re kp H; [reflexivity|].
  cbn [rfoldi]. destruct (Nat.eqb_spec i idx); [exfalso; apply (H i); cbn; lia|]. cbn [andb bind].
  unfold kpacker_push_all. cbn [rfold]. destruct (kpacker_push D kp v); cbn [bind]; auto.
  rewrite IH; [reflexivity|]. intros j Hj. apply H. cbn. lia.
Qed.

Lemma rfoldi_app {S} (f : S -> nat -> Z -> res S) a : forall b i st,
  rfoldi f (a ++ b) i st = (st' <- rfoldi f a i st ;; rfoldi f b (i + List.length a)%nat st').
Proof.
  induction a as [|x a IH]; intros b i st; cbn [app rfoldi bind List.length].
  - rewrite Nat.add_0_r. reflexivity.
  - destruct (f st i x); cbn [bind]; auto. rewrite IH. rewrite Nat.add_succ_r. reflexivity.
Qed.

Lemma int_loop_skip D idx : forall vs i re kp, (forall j, (i <= j < i + List.length vs)%nat -> j <> idx) ->
  rfoldi (fun '(ret_exp, kp) i tmp =>
         '(ret_exp', tmp') <-
           (if (i =? idx)%nat
            then
              if sgnd (kd_ty D) && (tmp =? -1) then Throw domain_error
              else t <- arith (kd_ty D) (tmp + 1) ;; Ok (t, t)
            else Ok (ret_exp, tmp)) ;;
         kp' <- kpacker_push D kp tmp' ;;
         Ok (ret_exp', kp')) vs i (re, kp) = (kp' <- kpacker_push_all D kp vs ;; Ok (re, kp')).
Proof.
  induction vs as [|v vs IH]; intros i re kp H; [reflexivity|].
  cbn [rfoldi]. destruct (Nat.eqb_spec i idx); [exfalso; apply (H i); cbn; lia|]. cbn [andb bind].
  unfold kpacker_push_all. cbn [rfold]. destruct (kpacker_push D kp v); cbn [bind]; auto.
  rewrite IH; [reflexivity|]. intros j Hj. apply H. cbn. lia.
Qed.

Lemma split_at (vs : list Z) idx : (idx < List.length vs)%nat ->
  exists a x b, vs = a ++ x :: b /\ List.length a = idx /\ nth idx vs 0 = x.
Proof.
  intros H. destruct (nth_error vs idx) as [x|] eqn:E; [|apply nth_error_None in E; lia].
  apply nth_error_split in E as (a & b & -> & L). exists a, x, b. repeat split; auto.
  rewrite app_nth2, L, Nat.sub_diag by lia. reflexivity.
Qed.

Lemma okb_app_outcome D n a b : packable D -> (n <= max_size D)%nat -> (List.length (a ++ b) <= n)%nat ->
  (kp <- kpacker_push_all D (kp0 n) a ;; kpacker_push_all D kp b) =
  if forallb (comp_okb D n) (a ++ b) then Ok (pstate D n (a ++ b)) else Throw overflow_error.
Proof. intros. rewrite <- push_all_app. apply push_all_outcome_weak; auto. Qed.

Lemma diff_ok D ss p vs idx : packable D -> represents D (List.length ss) p vs -> (idx < List.length ss)%nat ->
  pm_diff D p idx ss =
    let e := nth idx vs 0 in
    if e =? 0 then Ok (0, p)
    else if comp_okb D (List.length ss) (e - 1)
    then Ok (e, kron (delta D (List.length ss)) (set_at idx (e - 1) vs))
    else Throw overflow_error.
Proof.
  intros HD R Hi. destruct (rep_unpack _ _ _ _ HD R) as (u & E & P).
  pose proof R as (L & B & C & Ep). set (n := List.length ss) in *.
  assert (G : good_size D n) by (split; lia).
  unfold pm_diff. fold n. rewrite E. cbn [bind]. rewrite new_cases by auto.
  replace (max_size D <? n)%nat with false by (symmetry; apply Nat.ltb_ge; lia).
  cbn [bind]. rewrite (unpack_loop_pure _ _ _ _ _ _ _ P).
  destruct (split_at vs idx) as (a & x & b & Ev & La & Ex); [lia|]. cbn zeta. rewrite Ex.
  assert (Cx : comp_ok D n x /\ Forall (comp_ok D n) a /\ Forall (comp_ok D n) b).
  { rewrite Ev in C. apply Forall_app in C as [Ca C]. inversion C; subst. auto. }
  destruct Cx as (Cx & Ca & Cb).
  rewrite Ev at 1. rewrite rfoldi_app. rewrite diff_loop_skip by (intros; lia).
  cbn [Nat.add]. rewrite La.
  assert (Lv : List.length vs = (idx + S (List.length b))%nat) by (rewrite Ev, app_length, La; reflexivity).
  assert (Pa : kpacker_push_all D (kp0 n) a = Ok (pstate D n a)).
  { rewrite push_all_outcome_weak by (auto; lia). apply all_okb_iff in Ca. rewrite Ca. reflexivity. }
  rewrite Pa. cbn [bind rfoldi]. rewrite Nat.eqb_refl. cbn [andb].
  pose proof (packable_ok _ HD) as OK.
  destruct (Z.eqb_spec x 0) as [X0|X0].
  - cbn [negb bind]. rewrite push_ok by (auto; lia). cbn [bind].
    rewrite diff_loop_skip by (intros; lia).
    rewrite push_all_ok; auto; [|apply Forall_app; auto|rewrite app_length; cbn; lia].
    cbn [bind]. rewrite <- app_assoc. cbn [app]. rewrite <- Ev. rewrite pstate_get. rewrite <- Ep. reflexivity.
  - cbn [negb]. pose proof (lim_pos D n HD G) as (L1 & L2 & L3 & L4 & L5 & L6 & L7).
    rewrite arith_ok; [|apply bits_gt1 with (s := n); auto|].
    2:{ unfold comp_ok in Cx. unfold lo in *. destruct (sgnd (kd_ty D)) eqn:S; [specialize (L4 eq_refl); lia|].
        unfold imin. rewrite S. lia. }
    cbn [bind]. destruct (comp_okb D n (x - 1)) eqn:O.
    + apply comp_okb_iff in O. rewrite push_ok by (auto; lia). cbn [bind].
      rewrite diff_loop_skip by (intros; lia).
      rewrite push_all_ok; auto; [|apply Forall_app; auto|rewrite app_length; cbn; lia].
      cbn [bind]. rewrite <- app_assoc. cbn [app]. rewrite pstate_get. rewrite Ev, <- La, set_at_app. reflexivity.
    + rewrite push_bad; auto; [lia|]. rewrite <- comp_okb_iff. congruence.
Qed.

Lemma integrate_ok D ss p vs idx : packable D -> represents D (List.length ss) p vs -> (idx < List.length ss)%nat ->
  pm_integrate D p idx ss =
    let e := nth idx vs 0 in
    if e =? -1 then Throw domain_error
    else if comp_okb D (List.length ss) (e + 1)
    then Ok (e + 1, kron (delta D (List.length ss)) (set_at idx (e + 1) vs))
    else Throw overflow_error.
Proof.
  intros HD R Hi. destruct (rep_unpack _ _ _ _ HD R) as (u & E & P).
  pose proof R as (L & B & C & Ep). set (n := List.length ss) in *.
  assert (G : good_size D n) by (split; lia).
  unfold pm_integrate. fold n. rewrite E. cbn [bind]. rewrite new_cases by auto.
  replace (max_size D <? n)%nat with false by (symmetry; apply Nat.ltb_ge; lia).
  cbn [bind]. rewrite (unpack_loop_pure _ _ _ _ _ _ _ P).
  destruct (split_at vs idx) as (a & x & b & Ev & La & Ex); [lia|]. cbn zeta. rewrite Ex.
  assert (Cx : comp_ok D n x /\ Forall (comp_ok D n) a /\ Forall (comp_ok D n) b).
  { rewrite Ev in C. apply Forall_app in C as [Ca C]. inversion C; subst. auto. }
  destruct Cx as (Cx & Ca & Cb).
  rewrite Ev at 1. rewrite rfoldi_app. rewrite int_loop_skip by (intros; lia).
  cbn [Nat.add]. rewrite La.
  assert (Lv : List.length vs = (idx + S (List.length b))%nat) by (rewrite Ev, app_length, La; reflexivity).
  assert (Pa : kpacker_push_all D (kp0 n) a = Ok (pstate D n a)).
  { rewrite push_all_outcome_weak by (auto; lia). apply all_okb_iff in Ca. rewrite Ca. reflexivity. }
  rewrite Pa. cbn [bind rfoldi]. rewrite Nat.eqb_refl.
  pose proof (packable_ok _ HD) as OK. pose proof (lim_pos D n HD G) as (L1 & L2 & L3 & L4 & L5 & L6 & L7).
  assert (SG : sgnd (kd_ty D) && (x =? -1) = (x =? -1)).
  { destruct (sgnd (kd_ty D)) eqn:S; auto. cbn. symmetry. apply Z.eqb_neq. unfold comp_ok, lo in Cx. rewrite S in Cx. lia. }
  rewrite SG. destruct (Z.eqb_spec x (-1)) as [X0|X0]; [reflexivity|].
  rewrite arith_ok; [|apply bits_gt1 with (s := n); auto|].
  2:{ unfold comp_ok in Cx. lia. }
  cbn [bind]. destruct (comp_okb D n (x + 1)) eqn:O.
  + apply comp_okb_iff in O. rewrite push_ok by (auto; lia). cbn [bind].
    rewrite int_loop_skip by (intros; lia).
    rewrite push_all_ok; auto; [|apply Forall_app; auto|rewrite app_length; cbn; lia].
    cbn [bind]. rewrite <- app_assoc. cbn [app]. rewrite pstate_get. rewrite Ev, <- La, set_at_app. reflexivity.
  + rewrite push_bad; auto; [lia|]. rewrite <- comp_okb_iff. congruence.
Qed.

Lemma set_at_rep D n p vs idx x : represents D n p vs -> (idx < n)%nat -> comp_ok D n x ->
  represents D n (kron (delta D n) (set_at idx x vs)) (set_at idx x vs).
Proof.
  intros (L & B & C & E) Hi Cx. destruct (split_at vs idx) as (a & y & b & Ev & La & Ey); [lia|].
  rewrite Ev, <- La, set_at_app. subst vs. apply Forall_app in C as [Ca C]. inversion C; subst.
  repeat split; auto.
  - rewrite !app_length in *. cbn [List.length] in *. lia.
  - apply Forall_app; auto.
Qed.
