From Coq Require Import ZArith List Bool String Lia Sorted Arith.
From Verif Require Import Base KpackTables KpackModel KpackSpec KpackProofs IntModel IntSpec IntProofs
  SymModel SymSpec SymProofs PMonModel PMonSpec PMonProofs PMonProofs2 DPMModel DPMSpec.
Import ListNotations.
Open Scope Z_scope.

(** * Packs *)
Lemma npacks_0 ps : (1 <= ps)%nat -> npacks ps 0 = 0%nat.
Proof. intros H. unfold npacks. apply Nat.div_small. lia. Qed.
Lemma npacks_S ps n : (1 <= ps)%nat -> (1 <= n)%nat -> npacks ps n = S (npacks ps (n - ps)).
Proof.
  intros H Hn. unfold npacks. destruct (le_lt_dec ps n).
  - replace (n + ps - 1)%nat with ((n - ps + ps - 1) + 1 * ps)%nat by lia. rewrite Nat.div_add by lia. lia.
  - replace (n - ps)%nat with 0%nat by lia. rewrite (Nat.div_small (0 + ps - 1)) by lia.
    replace (n + ps - 1)%nat with ((n - 1) + 1 * ps)%nat by lia. rewrite Nat.div_add by lia. rewrite Nat.div_small by lia. reflexivity.
Qed.
Lemma vsize_npacks ps n : (1 <= ps)%nat -> dpm_vsize ps n = npacks ps n.
Proof.
  intros H. unfold dpm_vsize, npacks. pose proof (Nat.div_mod n ps ltac:(lia)) as DM.
  pose proof (Nat.mod_upper_bound n ps ltac:(lia)) as MB.
  destruct (Nat.eqb_spec (n mod ps) 0) as [E|E].
  - replace (n + ps - 1)%nat with ((ps - 1) + (n / ps) * ps)%nat by nia. rewrite Nat.div_add by lia. rewrite (Nat.div_small (ps - 1)) by lia. lia.
  - replace (n + ps - 1)%nat with ((n mod ps - 1) + (n / ps + 1) * ps)%nat by nia. rewrite Nat.div_add by lia. rewrite (Nat.div_small (n mod ps - 1)) by lia. lia.
Qed.

Lemma dcode_nil D ps : (1 <= ps)%nat -> dcode D ps [] = [].
Proof. intros H. unfold dcode. cbn [List.length]. rewrite npacks_0 by exact H. reflexivity. Qed.
Lemma dcode_step D ps vs : (1 <= ps)%nat -> vs <> [] ->
  dcode D ps vs = kron (delta D ps) (firstn ps vs) :: dcode D ps (skipn ps vs).
Proof.
  intros H N. unfold dcode. assert (1 <= List.length vs)%nat by (destruct vs; [congruence|cbn; lia]).
  rewrite npacks_S by assumption. rewrite skipn_length. cbn [seq map]. f_equal.
  rewrite <- seq_shift, map_map. apply map_ext. intros i. f_equal. f_equal.
  rewrite skipn_skipn. f_equal. lia.
Qed.
Lemma dcode_app D ps a b : (1 <= ps)%nat -> List.length a = ps -> dcode D ps (a ++ b) = kron (delta D ps) a :: dcode D ps b.
Proof.
  intros H L. rewrite dcode_step; [|exact H|destruct a; [cbn in L; lia|discriminate]].
  rewrite <- L at 2 4. rewrite firstn_mid. f_equal. f_equal.
  rewrite skipn_app, skipn_all, Nat.sub_diag. reflexivity.
Qed.
Lemma dcode_short D ps a : (1 <= ps)%nat -> a <> [] -> (List.length a <= ps)%nat -> dcode D ps a = [kron (delta D ps) a].
Proof.
  intros H N L. rewrite dcode_step by assumption. rewrite firstn_all2, skipn_all2 by lia. rewrite dcode_nil by exact H. reflexivity.
Qed.
Lemma dcode_length D ps vs : List.length (dcode D ps vs) = npacks ps (List.length vs).
Proof. unfold dcode. rewrite map_length, seq_length. reflexivity. Qed.

(** Induction on the number of packs. *)
Lemma chunk_ind (ps : nat) (P : list Z -> Prop) : (1 <= ps)%nat -> P [] ->
  (forall vs, vs <> [] -> P (skipn ps vs) -> P vs) -> forall vs, P vs.
Proof.
  intros H P0 PS vs. remember (List.length vs) as n eqn:E. revert vs E.
  induction n as [n IH] using lt_wf_ind. intros vs ->. destruct vs as [|v vs]; [exact P0|].
  apply PS; [discriminate|]. apply (IH (List.length (skipn ps (v :: vs)))); [|reflexivity].
  rewrite skipn_length. cbn [List.length]. lia.
Qed.

Lemma Forall_firstn {A} (P : A -> Prop) k l : Forall P l -> Forall P (firstn k l).
Proof. intros H. rewrite <- (firstn_skipn k l) in H. apply Forall_app in H. tauto. Qed.
Lemma Forall_skipn {A} (P : A -> Prop) k l : Forall P l -> Forall P (skipn k l).
Proof. intros H. rewrite <- (firstn_skipn k l) in H. apply Forall_app in H. tauto. Qed.

Lemma pops_prefix D k m : forall u l, kunpacker_pops D (k + m) u = Ok l -> kunpacker_pops D k u = Ok (firstn k l).
Proof.
  induction k as [|k IH]; intros u l H; [reflexivity|]. cbn [Nat.add kunpacker_pops] in *.
  destruct (kunpacker_pop D u) as [[v u']| |]; cbn [bind] in *; try discriminate.
  destruct (kunpacker_pops D (k + m) u') as [l'| |] eqn:E; cbn [bind] in *; try discriminate.
  inversion H; subst. rewrite (IH _ _ E). reflexivity.
Qed.

(** Unpacking one pack. *)
Lemma pack_unpack D ps a : packable D -> good_size D ps -> Forall (comp_ok D ps) a -> (List.length a <= ps)%nat ->
  exists u, kunpacker_new D (kron (delta D ps) a) ps = Ok u /\ kunpacker_pops D (List.length a) u = Ok a.
Proof.
  intros HD G C L.
  set (b := a ++ repeat 0 (ps - List.length a)).
  assert (R : represents D ps (kron (delta D ps) a) b).
  { unfold b. repeat split.
    - rewrite app_length, repeat_length. lia.
    - destruct G; lia.
    - apply Forall_app. split; auto. apply Forall_forall. intros x I. apply repeat_spec in I. subst. apply PMonProofs2.zero_comp; auto.
    - symmetry. apply kron_pad. }
  destruct (rep_unpack D ps _ b HD R) as (u & E & P). exists u. split; [exact E|].
  replace ps with (List.length a + (ps - List.length a))%nat in P by lia.
  apply pops_prefix in P. rewrite P. f_equal. unfold b. apply firstn_mid.
Qed.

(** * Reading loops *)
Fixpoint rfoldc {S : Type} (cond : S -> nat -> bool) (body : S -> nat -> Z -> res S) (vs : list Z) (i : nat) (st : S)
  : res (nat * S) :=
  match vs with
  | [] => Ok (i, st)
  | v :: vs' => if cond st i then st' <- body st i v ;; rfoldc cond body vs' (Datatypes.S i) st' else Ok (i, st)
  end.

Section Read.
Context {S : Type} (D : kdata) (ps n : nat) (cond : S -> nat -> bool) (body : S -> nat -> Z -> res S)
  (Inv : S -> nat -> Prop).
Context (HD : packable D) (G : good_size D ps).
Context (HI : forall st i, Inv st i -> cond st i = true -> (i < n)%nat).
Context (HB : forall st i v st', Inv st i -> cond st i = true -> body st i v = Ok st' -> Inv st' (Datatypes.S i)).

Lemma inner_pure : forall a u idx st j, kunpacker_pops D (List.length a) u = Ok a -> Inv st idx ->
  (List.length a = j \/ (List.length a <= j /\ n <= idx + List.length a)%nat) ->
  dpm_inner D cond body j idx u st = rfoldc cond body a idx st.
Proof.
  induction a as [|v a IH]; intros u idx st j P HInv H.
  - destruct j as [|j]; [reflexivity|]. destruct H as [H|[_ H]]; [discriminate|]. cbn [dpm_inner rfoldc].
    destruct (cond st idx) eqn:E; [|reflexivity]. apply HI in E; auto. cbn [List.length] in H. lia.
  - destruct j as [|j]; [destruct H as [H|[H _]]; cbn in H; [discriminate|lia]|].
    cbn [List.length kunpacker_pops] in P.
    destruct (kunpacker_pop D u) as [[v0 u']| |] eqn:E; cbn [bind] in P; try discriminate.
    destruct (kunpacker_pops D (List.length a) u') as [ws| |] eqn:E2; cbn [bind] in P; try discriminate.
    inversion P; subst v0 ws. cbn [dpm_inner rfoldc]. destruct (cond st idx) eqn:EC; [|reflexivity].
    rewrite E. cbn [bind]. destruct (body st idx v) as [st'| |] eqn:EB; cbn [bind]; auto.
    apply IH; [exact E2|eapply HB; eauto|]. destruct H as [H|[H1 H2]]; [left; cbn in H; lia|right; cbn in *; lia].
Qed.

Lemma rfoldc_app a : forall b i st, rfoldc cond body (a ++ b) i st = ('(i', st') <- rfoldc cond body a i st ;; rfoldc cond body b i' st').
Proof.
  induction a as [|v a IH]; intros b i st; [reflexivity|]. cbn [app rfoldc]. destruct (cond st i) eqn:E.
  - destruct (body st i v); cbn [bind]; auto.
  - cbn [bind]. destruct b; cbn [rfoldc]; [reflexivity|]. rewrite E. reflexivity.
Qed.

Lemma rfoldc_res a : forall i st i' st', Inv st i -> rfoldc cond body a i st = Ok (i', st') ->
  (i' = (i + List.length a)%nat /\ Inv st' i') \/ cond st' i' = false.
Proof.
  induction a as [|v a IH]; intros i st i' st' HInv H.
  - inversion H; subst. left. split; [cbn; lia|exact HInv].
  - cbn [rfoldc] in H. destruct (cond st i) eqn:E.
    + destruct (body st i v) as [st1| |] eqn:EB; cbn [bind] in H; try discriminate.
      destruct (IH _ _ _ _ (HB _ _ _ _ HInv E EB) H) as [[A B]|A]; auto. left. split; auto. cbn. lia.
    + inversion H; subst. auto.
Qed.

Lemma read_stopped vs : Forall (comp_ok D ps) vs -> forall idx st, cond st idx = false ->
  dpm_read D ps cond body (dcode D ps vs) idx st = Ok st.
Proof.
  pose proof G as [G1 _]. revert vs. apply (chunk_ind ps (fun vs => Forall (comp_ok D ps) vs -> forall idx st, cond st idx = false ->
    dpm_read D ps cond body (dcode D ps vs) idx st = Ok st) G1).
  - intros _ idx st _. rewrite dcode_nil by exact G1. reflexivity.
  - intros vs N IH F idx st E. rewrite dcode_step by assumption. cbn [dpm_read].
    destruct (pack_unpack D ps (firstn ps vs) HD G) as (u & Eu & _); [apply Forall_firstn; exact F|rewrite firstn_length; lia|].
    rewrite Eu. cbn [bind]. destruct ps as [|p]; [lia|]. cbn [dpm_inner]. rewrite E. cbn [bind].
    apply IH; auto. apply Forall_skipn; exact F.
Qed.

Lemma read_pure vs : Forall (comp_ok D ps) vs -> forall idx st, Inv st idx -> (idx + List.length vs = n)%nat ->
  dpm_read D ps cond body (dcode D ps vs) idx st = ('(_, st') <- rfoldc cond body vs idx st ;; Ok st').
Proof.
  pose proof G as [G1 _]. revert vs. apply (chunk_ind ps (fun vs => Forall (comp_ok D ps) vs -> forall idx st, Inv st idx -> (idx + List.length vs = n)%nat ->
    dpm_read D ps cond body (dcode D ps vs) idx st = ('(_, st') <- rfoldc cond body vs idx st ;; Ok st')) G1).
  - intros _ idx st _ _. rewrite dcode_nil by exact G1. reflexivity.
  - intros vs N IH F idx st HInv L. rewrite dcode_step by assumption. cbn [dpm_read].
    assert (FL : (List.length (firstn ps vs) <= ps)%nat) by (rewrite firstn_length; lia).
    destruct (pack_unpack D ps (firstn ps vs) HD G) as (u & Eu & Pu); [apply Forall_firstn; exact F|exact FL|].
    rewrite Eu. cbn [bind].
    rewrite (inner_pure (firstn ps vs)); auto.
    2:{ destruct (le_lt_dec ps (List.length vs)); [left; rewrite firstn_length; lia|right; rewrite firstn_length; lia]. }
    replace (rfoldc cond body vs idx st) with (rfoldc cond body (firstn ps vs ++ skipn ps vs) idx st) by (rewrite firstn_skipn; reflexivity). rewrite rfoldc_app.
    destruct (rfoldc cond body (firstn ps vs) idx st) as [[i' st']| |] eqn:E; cbn [bind]; auto.
    destruct (rfoldc_res _ _ _ _ _ HInv E) as [[A B]|A].
    + destruct (le_lt_dec (List.length vs) ps) as [LE|LT].
      * rewrite skipn_all2 by exact LE. rewrite dcode_nil by exact G1. reflexivity.
      * apply IH; auto; [apply Forall_skipn; exact F|]. rewrite A, firstn_length, skipn_length. lia.
    + rewrite read_stopped; auto; [|apply Forall_skipn; exact F].
      destruct (skipn ps vs); cbn [rfoldc bind]; [reflexivity|]. rewrite A. reflexivity.
Qed.
End Read.


Lemma rfoldc_lt {S} n (body : S -> nat -> Z -> res S) : forall vs idx st, (idx + List.length vs <= n)%nat ->
  rfoldc (dpm_lt n) body vs idx st = (st' <- rfoldi body vs idx st ;; Ok ((idx + List.length vs)%nat, st')).
Proof.
  induction vs as [|v vs IH]; intros idx st L; cbn [rfoldc rfoldi List.length] in *.
  - rewrite Nat.add_0_r. reflexivity.
  - unfold dpm_lt at 1. replace (idx <? n)%nat with true by (symmetry; apply Nat.ltb_lt; lia).
    destruct (body st idx v); cbn [bind]; auto. rewrite IH by lia. rewrite Nat.add_succ_r. reflexivity.
Qed.

Lemma dpm_lt_lt {S} n (st : S) i : dpm_lt n st i = true -> (i < n)%nat.
Proof. unfold dpm_lt. apply Nat.ltb_lt. Qed.

(** The loop over a represented monomial visits its exponents. *)
Lemma read_lt {S} D ps n d vs (body : S -> nat -> Z -> res S) st : packable D -> good_size D ps -> drepresents D ps n d vs ->
  dpm_read D ps (dpm_lt n) body d 0 st = rfoldi body vs 0 st.
Proof.
  intros HD G (L & C & ->).
  rewrite (read_pure D ps n (dpm_lt n) body (fun _ _ => True) HD G); auto.
  - rewrite rfoldc_lt by lia. destruct (rfoldi body vs 0 st); reflexivity.
  - intros s i _ E. eapply dpm_lt_lt; eauto.
Qed.

(** * Repacking loops *)
Fixpoint gmap {S : Type} (D : kdata) (ps : nat) (g : S -> nat -> Z -> res (S * Z)) (vs : list Z) (i : nat) (st : S)
  : res (S * list Z) :=
  match vs with
  | [] => Ok (st, [])
  | v :: vs' =>
      '(st', w) <- g st i v ;;
      if comp_okb D ps w then '(st'', ws) <- gmap D ps g vs' (Datatypes.S i) st' ;; Ok (st'', w :: ws)
      else Throw overflow_error
  end.

Lemma gmap_app {S} D ps (g : S -> nat -> Z -> res (S * Z)) a : forall b i st,
  gmap D ps g (a ++ b) i st =
  ('(st', ws) <- gmap D ps g a i st ;; '(st'', us) <- gmap D ps g b (i + List.length a)%nat st' ;; Ok (st'', ws ++ us)).
Proof.
  induction a as [|v a IH]; intros b i st; cbn [app gmap List.length bind].
  - rewrite Nat.add_0_r. destruct (gmap D ps g b i st) as [[? ?]| |]; reflexivity.
  - destruct (g st i v) as [[st' w]| |]; cbn [bind]; auto. destruct (comp_okb D ps w); auto.
    rewrite IH. destruct (gmap D ps g a _ st') as [[s1 ws]| |]; cbn [bind]; auto.
    rewrite Nat.add_succ_r. destruct (gmap D ps g b _ s1) as [[s2 us]| |]; reflexivity.
Qed.

Lemma gmap_len {S} D ps (g : S -> nat -> Z -> res (S * Z)) : forall vs i st st' ws,
  gmap D ps g vs i st = Ok (st', ws) -> List.length ws = List.length vs /\ Forall (comp_ok D ps) ws.
Proof.
  induction vs as [|v vs IH]; intros i st st' ws H; cbn [gmap] in H.
  - inversion H; subst. split; auto.
  - destruct (g st i v) as [[s1 w]| |]; cbn [bind] in H; try discriminate.
    destruct (comp_okb D ps w) eqn:E; try discriminate.
    destruct (gmap D ps g vs _ s1) as [[s2 us]| |] eqn:E2; cbn [bind] in H; try discriminate.
    inversion H; subst. destruct (IH _ _ _ _ E2). cbn [List.length]. split; [lia|]. constructor; auto. apply comp_okb_iff; auto.
Qed.

Lemma repack_inner {S} D ps n (g : S -> nat -> Z -> res (S * Z)) : packable D -> good_size D ps -> forall a idx st done,
  Forall (comp_ok D ps) done -> (List.length done + List.length a <= ps)%nat -> (idx + List.length a <= n)%nat ->
  rfoldc (dpm_lt n)
          (fun '(st, kp) i tmp =>
             '(st', w) <- g st i tmp ;;
             kp' <- kpacker_push D kp w ;;
             Ok (st', kp')) a idx (st, pstate D ps done) =
  ('(st', ws) <- gmap D ps g a idx st ;; Ok ((idx + List.length a)%nat, (st', pstate D ps (done ++ ws)))).
Proof.
  intros HD G. pose proof (packable_ok _ HD) as OK.
  induction a as [|v a IH]; intros idx st done F L Ln; cbn [rfoldc gmap List.length bind] in *.
  - rewrite Nat.add_0_r, app_nil_r. reflexivity.
  - unfold dpm_lt at 1. replace (idx <? n)%nat with true by (symmetry; apply Nat.ltb_lt; lia).
    destruct (g st idx v) as [[st' w]| |]; cbn [bind]; auto.
    destruct (comp_okb D ps w) eqn:E.
    + apply comp_okb_iff in E. rewrite push_ok by (auto; lia). cbn [bind].
      rewrite IH; [|apply Forall_app; auto|rewrite app_length; cbn; lia|lia].
      destruct (gmap D ps g a _ st') as [[s1 ws]| |]; cbn [bind]; auto.
      rewrite Nat.add_succ_r, <- app_assoc. reflexivity.
    + rewrite push_bad; auto; try lia. rewrite <- comp_okb_iff. congruence.
Qed.

Lemma repack_pure {S} D ps n (g : S -> nat -> Z -> res (S * Z)) : packable D -> good_size D ps -> forall vs,
  Forall (comp_ok D ps) vs -> forall idx st, (idx + List.length vs = n)%nat ->
  dpm_repack D ps n g (dcode D ps vs) idx st = ('(st', ws) <- gmap D ps g vs idx st ;; Ok (st', dcode D ps ws)).
Proof.
  intros HD G. pose proof G as [G1 G2].
  apply (chunk_ind ps (fun vs => Forall (comp_ok D ps) vs -> forall idx st, (idx + List.length vs = n)%nat ->
    dpm_repack D ps n g (dcode D ps vs) idx st = ('(st', ws) <- gmap D ps g vs idx st ;; Ok (st', dcode D ps ws))) G1).
  - intros _ idx st _. rewrite dcode_nil by exact G1. cbn. rewrite dcode_nil by exact G1. reflexivity.
  - intros vs N IH F idx st L. rewrite dcode_step by assumption. cbn [dpm_repack].
    assert (FL : (List.length (firstn ps vs) <= ps)%nat) by (rewrite firstn_length; lia).
    destruct (pack_unpack D ps (firstn ps vs) HD G) as (u & Eu & Pu); [apply Forall_firstn; exact F|exact FL|].
    rewrite Eu. cbn [bind]. rewrite new_cases by exact HD.
    replace (max_size D <? ps)%nat with false by (symmetry; apply Nat.ltb_ge; lia). cbn [bind].
    rewrite (kp0_pstate D).
    rewrite (inner_pure D n (dpm_lt n) _ (fun _ _ => True)) with (a := firstn ps vs); auto.
    2:{ intros s i _ E. eapply dpm_lt_lt; eauto. }
    2:{ destruct (le_lt_dec ps (List.length vs)); [left; rewrite firstn_length; lia|right; rewrite firstn_length; lia]. }
    rewrite repack_inner; auto; [|rewrite firstn_length; lia].
    replace (gmap D ps g vs idx st) with (gmap D ps g (firstn ps vs ++ skipn ps vs) idx st) by (rewrite firstn_skipn; reflexivity).
    rewrite gmap_app. destruct (gmap D ps g (firstn ps vs) idx st) as [[s1 ws]| |] eqn:E1; cbn [bind]; auto.
    destruct (gmap_len _ _ _ _ _ _ _ _ E1) as [Lw Fw].
    destruct (le_lt_dec (List.length vs) ps) as [LE|GT].
    + rewrite skipn_all2 by exact LE. rewrite dcode_nil by exact G1. cbn [dpm_repack gmap bind].
      rewrite app_nil_r. rewrite dcode_short; auto.
      * intros ->. rewrite firstn_all2 in Lw by exact LE. destruct vs; [congruence|discriminate].
      * rewrite Lw. exact FL.
    + rewrite IH; [|apply Forall_skipn; exact F|rewrite skipn_length, firstn_length; lia].
      destruct (gmap D ps g (skipn ps vs) _ s1) as [[s2 us]| |] eqn:E2; cbn [bind]; auto.
      rewrite dcode_app; auto. rewrite Lw, firstn_length. lia.
Qed.

Lemma repack_lt {S} D ps n d vs (g : S -> nat -> Z -> res (S * Z)) st : packable D -> good_size D ps -> drepresents D ps n d vs ->
  dpm_repack D ps n g d 0 st = ('(st', ws) <- gmap D ps g vs 0 st ;; Ok (st', dcode D ps ws)).
Proof. intros HD G (L & C & ->). apply repack_pure; auto. Qed.

(** * Construction *)
Lemma pack_inner_push D u : forall j kp it,
  dpm_pack_inner D u j kp it = (kp' <- pm_push_cast D u kp (firstn j it) ;; Ok (kp', skipn j it)).
Proof.
  induction j as [|j IH]; intros kp it; [destruct it; reflexivity|].
  destruct it as [|v it]; [reflexivity|]. cbn [dpm_pack_inner firstn skipn pm_push_cast].
  destruct (safe_cast_int (kd_ty D) u v); cbn [bind]; auto.
  destruct (kpacker_push D kp a); cbn [bind]; auto.
Qed.

Definition construct_spec (D : kdata) (ps : nat) (vs : list Z) (r : res dpm) : Prop :=
  if fits D ps vs then r = Ok (dcode D ps vs) else r = Throw overflow_error \/ r = Throw safe_cast_failure.

Lemma fits_app D ps a b : fits D ps (a ++ b) = fits D ps a && fits D ps b.
Proof. apply forallb_app. Qed.

Lemma pack_chunk D ps u a : packable D -> good_size D ps -> integral_type u -> Forall (has_value u) a ->
  (List.length a <= ps)%nat ->
  if fits D ps a then pm_push_cast D u (kp0 ps) a = Ok (pstate D ps a)
  else pm_push_cast D u (kp0 ps) a = Throw overflow_error \/ pm_push_cast D u (kp0 ps) a = Throw safe_cast_failure.
Proof.
  intros HD G Hu Ha L. destruct (fits D ps a) eqn:F.
  - pose proof F as F'. apply fits_iff in F'. rewrite push_cast_ok; auto.
    + rewrite push_all_outcome_weak; auto; [|destruct G; lia]. unfold fits in F. rewrite F. reflexivity.
    + eapply Forall_impl; [|exact F']. intros. eapply comp_in_ity; eauto.
  - apply push_cast_fail; auto. destruct G; lia.
Qed.

Lemma of_range_ok D ps u vs : packable D -> good_size D ps -> integral_type u -> Forall (has_value u) vs ->
  construct_spec D ps vs (dpm_of_range D ps u vs).
Proof.
  intros HD G Hu Hv. pose proof G as [G1 G2]. unfold dpm_of_range.
  assert (Gen : forall fuel, (List.length vs <= fuel)%nat -> construct_spec D ps vs (dpm_range_loop D ps u fuel vs)).
  2:{ apply Gen. lia. }
  revert Hv. apply (chunk_ind ps (fun vs => Forall (has_value u) vs -> forall fuel, (List.length vs <= fuel)%nat ->
    construct_spec D ps vs (dpm_range_loop D ps u fuel vs)) G1).
  - intros _ fuel _. unfold construct_spec. cbn. rewrite dcode_nil by exact G1. destruct fuel; reflexivity.
  - clear vs. intros vs N IH Hv fuel L. destruct vs as [|v vs0]; [congruence|].
    remember (v :: vs0) as vs eqn:Evs. destruct fuel as [|fuel]; [subst; cbn in L; lia|].
    assert (E : dpm_range_loop D ps u (S fuel) vs =
      (kp <- kpacker_new D ps ;; '(kp', it') <- dpm_pack_inner D u ps kp vs ;;
       c <- dpm_range_loop D ps u fuel it' ;; Ok (kpacker_get kp' :: c))) by (subst vs; reflexivity).
    rewrite E. clear E. rewrite new_cases by exact HD.
    replace (max_size D <? ps)%nat with false by (symmetry; apply Nat.ltb_ge; lia). cbn [bind].
    rewrite pack_inner_push. unfold construct_spec.
    replace (fits D ps vs) with (fits D ps (firstn ps vs ++ skipn ps vs)) by (rewrite firstn_skipn; reflexivity). rewrite fits_app.
    pose proof (pack_chunk D ps u (firstn ps vs) HD G Hu (Forall_firstn _ _ _ Hv) ltac:(rewrite firstn_length; lia)) as PC.
    destruct (fits D ps (firstn ps vs)); cbn [andb].
    2:{ destruct PC as [-> | ->]; auto. }
    rewrite PC. cbn [bind].
    assert (LS : (List.length (skipn ps vs) <= fuel)%nat).
    { rewrite skipn_length. subst vs. cbn [List.length] in *. lia. }
    pose proof (IH (Forall_skipn _ _ _ Hv) fuel LS) as IH'. unfold construct_spec in IH'.
    destruct (fits D ps (skipn ps vs)).
    + rewrite IH'. cbn [bind]. rewrite pstate_get. rewrite (dcode_step D ps vs) by (auto; subst; discriminate). reflexivity.
    + destruct IH' as [-> | ->]; auto.
Qed.

Lemma of_iter_ok D ps u vs n : packable D -> good_size D ps -> integral_type u -> Forall (has_value u) vs ->
  List.length vs = n -> construct_spec D ps vs (dpm_of_iter D ps u vs n).
Proof.
  intros HD G Hu Hv L. pose proof G as [G1 G2]. unfold dpm_of_iter. rewrite vsize_npacks by exact G1.
  rewrite firstn_all2 by lia. subst n. revert Hv.
  apply (chunk_ind ps (fun vs => Forall (has_value u) vs -> construct_spec D ps vs (dpm_iter_loop D ps u (npacks ps (List.length vs)) vs)) G1).
  - intros _. unfold construct_spec. cbn [fits forallb List.length]. rewrite npacks_0, dcode_nil by exact G1. reflexivity.
  - clear vs. intros vs N IH Hv.
    assert (1 <= List.length vs)%nat by (destruct vs; [congruence|cbn; lia]).
    rewrite npacks_S by assumption. cbn [dpm_iter_loop]. rewrite new_cases by exact HD.
    replace (max_size D <? ps)%nat with false by (symmetry; apply Nat.ltb_ge; lia). cbn [bind].
    rewrite pack_inner_push. unfold construct_spec.
    replace (fits D ps vs) with (fits D ps (firstn ps vs ++ skipn ps vs)) by (rewrite firstn_skipn; reflexivity). rewrite fits_app.
    pose proof (pack_chunk D ps u (firstn ps vs) HD G Hu (Forall_firstn _ _ _ Hv) ltac:(rewrite firstn_length; lia)) as PC.
    destruct (fits D ps (firstn ps vs)); cbn [andb].
    2:{ destruct PC as [-> | ->]; auto. }
    rewrite PC. cbn [bind].
    pose proof (IH (Forall_skipn _ _ _ Hv)) as IH'. unfold construct_spec in IH'. rewrite skipn_length in IH'.
    destruct (fits D ps (skipn ps vs)).
    + rewrite IH'. cbn [bind]. rewrite pstate_get. rewrite (dcode_step D ps vs) by auto. reflexivity.
    + destruct IH' as [-> | ->]; auto.
Qed.
