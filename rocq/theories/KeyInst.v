(** The modelled monomial types satisfy the key laws. *)
From Coq Require Import ZArith List Bool String Arith Sorted Lia.
From Verif Require Import Base KpackModel KpackSpec KpackProofs P_Kpack IntModel SymModel SymSpec SymProofs
  PMonModel PMonSpec PMonProofs PMonProofs2 P_PMon DPMModel DPMSpec DPMProofs DPMProofs2 DPMProofs3 P_DPM KeyOps SeriesModel SeriesSpec.
Import ListNotations.
Open Scope Z_scope.
Notation len := List.length.

(** packed_monomial<T> as a key type (include/obake/polynomials/packed_monomial.hpp). *)
Definition pm_ops (D : kdata) : key_ops Z := {|
  k_eqb := pm_eq;
  k_hash := pm_hash;
  k_compatible := pm_compatible D;
  k_is_zero := pm_key_is_zero;
  k_is_one := pm_key_is_one;
  k_of_ss := pm_of_symbol_set;
  k_merge := pm_merge_symbols D;
  k_degree := pm_degree D;
  k_p_degree := pm_p_degree D;
  k_trim_identify := pm_trim_identify D;
  k_trim := pm_trim D;
  k_mul := pm_mul D;
  k_overflow_check := pm_overflow_check D;
  k_pow := pm_pow D;
  k_diff := pm_diff D;
  k_integrate := pm_integrate D;
  k_evaluate := fun V U vone vmul vpow k sm ss => pm_evaluate D vone vmul vpow k sm ss;
  k_subs := fun V U vone vmul vpow k sm ss => pm_subs D vone vmul vpow k sm ss
|}.

(** The exponents of a packed monomial are what a kunpacker returns. *)
Definition pm_exps (D : kdata) (n : nat) (p : Z) : list Z :=
  match kunpack D p n with Ok vs => vs | _ => [] end.

Definition pm_sem (D : kdata) : key_sem Z := {|
  ks_valid := fun n p => exists vs, represents D n p vs;
  ks_exps := pm_exps D;
  ks_fits := representable D;
  ks_deg_fits := fun _ => True;
  ks_total_ok := fun _ => True
|}.

(** d_packed_monomial<T, PSize> as a key type (include/obake/polynomials/d_packed_monomial.hpp). *)
Definition dpm_ops (D : kdata) (ps : nat) : key_ops dpm := {|
  k_eqb := dpm_eq;
  k_hash := dpm_hash;
  k_compatible := dpm_compatible D ps;
  k_is_zero := dpm_key_is_zero;
  k_is_one := dpm_key_is_one;
  k_of_ss := dpm_of_symbol_set ps;
  k_merge := dpm_merge_symbols D ps;
  k_degree := dpm_degree D ps;
  k_p_degree := dpm_p_degree D ps;
  k_trim_identify := dpm_trim_identify D ps;
  k_trim := dpm_trim D ps;
  k_mul := fun a b _ => dpm_mul D a b;
  k_overflow_check := dpm_overflow_check D ps;
  k_pow := dpm_pow D ps;
  k_diff := dpm_diff D ps;
  k_integrate := dpm_integrate D ps;
  k_evaluate := fun V U vone vmul vpow k sm ss => dpm_evaluate D ps vone vmul vpow k sm ss;
  k_subs := fun V U vone vmul vpow k sm ss => dpm_subs D ps vone vmul vpow k sm ss
|}.

(** The exponents of a dynamic packed monomial, read pack by pack up to n. *)
Definition dpm_exps (D : kdata) (ps n : nat) (d : dpm) : list Z :=
  match dpm_read D ps (dpm_lt n) (fun (l : list Z) (_ : nat) v => Ok (l ++ [v])) d 0 [] with Ok vs => vs | _ => [] end.

Definition dpm_sem (D : kdata) (ps : nat) : key_sem dpm := {|
  ks_valid := fun n d => exists vs, drepresents D ps n d vs;
  ks_exps := dpm_exps D ps;
  ks_fits := Forall (comp_ok D ps);
  ks_deg_fits := partial_sums_ok D;
  ks_total_ok := of_type D
|}.

(** * Proofs *)
Lemma pm_exps_rep D n p vs : packable D -> represents D n p vs -> pm_exps D n p = vs.
Proof.
  intros HD R. unfold pm_exps, kunpack. destruct (rep_unpack _ _ _ _ HD R) as (u & -> & E). cbn [bind]. rewrite E. reflexivity.
Qed.

Lemma pm_valid_rep D n p : packable D -> ks_valid (pm_sem D) n p -> represents D n p (pm_exps D n p).
Proof. intros HD [vs R]. rewrite (pm_exps_rep D n p vs HD R). exact R. Qed.

Lemma rfoldi_snoc : forall vs i (acc : list Z), rfoldi (fun (l : list Z) (_ : nat) v => Ok (l ++ [v])) vs i acc = Ok (acc ++ vs).
Proof.
  induction vs as [|v vs IH]; intros i acc; cbn [rfoldi bind]; [rewrite app_nil_r; reflexivity|].
  rewrite IH, <- app_assoc. reflexivity.
Qed.

Lemma dpm_exps_rep D ps n d vs : packable D -> psize_ok D ps -> drepresents D ps n d vs -> dpm_exps D ps n d = vs.
Proof.
  intros HD G R. unfold psize_ok in G. unfold dpm_exps. rewrite (read_lt D ps n d vs _ _ HD G R), rfoldi_snoc. reflexivity.
Qed.

Lemma dpm_valid_rep D ps n d : packable D -> psize_ok D ps -> ks_valid (dpm_sem D ps) n d -> drepresents D ps n d (dpm_exps D ps n d).
Proof. intros HD G [vs R]. rewrite (dpm_exps_rep D ps n d vs HD G R). exact R. Qed.

Lemma set_at_len i x vs : (i < len vs)%nat -> len (set_at i x vs) = len vs.
Proof. intros H. unfold set_at. rewrite app_length. cbn [List.length]. rewrite firstn_length, skipn_length. lia. Qed.

Lemma set_at_forall (P : Z -> Prop) i x vs : Forall P vs -> (i < len vs)%nat -> (Forall P (set_at i x vs) <-> P x).
Proof.
  intros F H. unfold set_at. rewrite Forall_app. split.
  - intros [_ B]. inversion B; auto.
  - intros Px. split; [|constructor; auto]; apply Forall_forall; intros y I; rewrite Forall_forall in F; apply F.
    + rewrite <- (firstn_skipn i vs). apply in_or_app. auto.
    + rewrite <- (firstn_skipn (S i) vs). apply in_or_app. auto.
Qed.

Lemma psum_dec D vs : partial_sums_ok D vs \/ ~ partial_sums_ok D vs.
Proof.
  unfold partial_sums_ok, of_type.
  assert (A : forall n, (forall k, (k <= n)%nat -> of_type D (vsum (firstn k vs))) \/ ~ (forall k, (k <= n)%nat -> of_type D (vsum (firstn k vs)))).
  { assert (B : forall z, of_type D z \/ ~ of_type D z) by (intros z; unfold of_type; lia).
    induction n as [|n IH].
    - destruct (B (vsum (firstn 0 vs))) as [H|H]; [left|right; intros X; apply H; apply X; lia].
      intros k Hk. replace k with 0%nat by lia. exact H.
    - destruct IH as [H|H]; [|right; intros X; apply H; intros k Hk; apply X; lia].
      destruct (B (vsum (firstn (S n) vs))) as [H'|H']; [left|right; intros X; apply H'; apply X; lia].
      intros k Hk. destruct (Nat.eq_dec k (S n)) as [->|N]; [exact H'|apply H; lia]. }
  apply A.
Qed.

Lemma comp_dec D s vs : Forall (comp_ok D s) vs \/ ~ Forall (comp_ok D s) vs.
Proof. destruct (fits D s vs) eqn:E; [left; apply fits_iff; exact E|right; intros H; apply fits_iff in H; congruence]. Qed.

Lemma forall_combine {A B : Type} (P : A -> Prop) (f : A -> B) l : Forall P l -> Forall (fun t => P (fst t)) (map (fun k => (k, f k)) l).
Proof. intros F. apply Forall_forall. intros t I. apply in_map_iff in I as (k & <- & I). cbn. rewrite Forall_forall in F. auto. Qed.

Theorem pm_key_laws D : packable D -> key_laws (pm_ops D) (pm_sem D).
Proof.
  intros HD.
  assert (VR : forall n p, ks_valid (pm_sem D) n p -> represents D n p (pm_exps D n p)) by (intros; apply pm_valid_rep; auto).
  assert (XR : forall n p vs, represents D n p vs -> (exists vs, represents D n p vs) /\ pm_exps D n p = vs).
  { intros n p vs R. split; [eauto|]. apply pm_exps_rep; auto. }
  assert (SM : Z.of_nat (max_size D) <= imax uint32) by (destruct HD as [->|[->|[->| ->]]]; vm_compute; discriminate).
  split.
  - intros a b. apply Z.eqb_eq.
  - intros k. unfold pm_ops, k_hash, pm_hash, wrap. cbn [sgnd size_t uint64 bits andb]. apply Z.mod_pos_bound. lia.
  - intros n k V. destruct (VR n k V) as [L _]. exact L.
  - intros n k V. destruct (VR n k V) as (L & M & F & _). cbn [pm_sem ks_fits ks_exps]. split; rewrite L; auto.
  - intros n k k' V V' E. destruct (VR n k V) as (_ & _ & _ & E1), (VR n k' V') as (_ & _ & _ & E2).
    cbn [pm_sem ks_exps] in E. rewrite E in E1. congruence.
  - intros vs [M F]. assert (R : represents D (len vs) (kron (delta D (len vs)) vs) vs) by (repeat split; auto).
    exists (kron (delta D (len vs)) vs). apply XR. exact R.
  - intros vs. unfold ks_fits, pm_sem, representable. destruct (comp_dec D (len vs) vs), (le_dec (len vs) (max_size D)); tauto.
  - intros vs. left. exact I.
  - intros k ss. destruct (pm_compatible_exact D k ss HD) as (b & E & H). exists b. split; [exact E|]. intros V. apply H. exact V.
  - reflexivity.
  - intros k ss V. pose proof (VR _ _ V) as R. pose proof R as (_ & M & _). apply (proj2 (proj2 (pm_unit_exact D ss k _ HD M))). exact R.
  - intros ss [M _]. rewrite repeat_length in M. destruct (pm_unit_exact D ss 0 [] HD M) as (_ & R & _). apply XR. exact R.
  - intros k s m V MO ws. pose proof (VR _ _ V) as R.
    destruct (pm_merge_symbols_exact D s k _ m HD R MO) as (A & B & B2 & _). fold ws in A, B, B2. change (ks_exps (pm_sem D)) with (pm_exps D) in ws. fold ws in A, B, B2.
    split.
    + intros F. destruct (A F) as (r & E & R'). exists r. split; [exact E|]. apply XR. exact R'.
    + intros F. destruct (Z_le_gt_dec (Z.of_nat (len ws)) (imax uint32)) as [Z1|Z1]; [left; apply B; auto|].
      apply B2. apply Z.gt_lt. exact Z1.
  - intros k ss V vs. split; [intros _|intros X; elim X; exact I]. apply (pm_degree_exact D ss k _ HD (VR _ _ V)).
  - intros k ss si V S vs. split; [intros _|intros X; elim X; exact I]. apply (pm_p_degree_exact D ss k _ si HD (VR _ _ V) S).
  - intros ss ks F.
    destruct (pm_trim_identify_exact D ss (map (fun k => (k, pm_exps D (len ss) k)) ks) HD) as (v & E & L & H).
    { apply Forall_forall. intros t I. apply in_map_iff in I as (k & <- & I). apply VR. rewrite Forall_forall in F. apply F. exact I. }
    rewrite map_map, map_id in E. exists v. split; [exact E|]. split; [exact L|]. intros i Hi. destruct (H i Hi) as [H1 H2].
    split; [|exact H2]. rewrite H1. split; intros X.
    + intros k I. apply (X (k, pm_exps D (len ss) k)). apply in_map_iff. eauto.
    + intros t I. apply in_map_iff in I as (k & <- & I). apply X. exact I.
  - intros k ss si V S B. destruct (pm_trim_exact D ss k _ si HD (VR _ _ V) S B) as (r & E & R & _).
    exists r. split; [exact E|]. apply XR. exact R.
  - intros a b ss Va Vb ws [_ F]. pose proof (VR _ _ Va) as Ra. pose proof (VR _ _ Vb) as Rb.
    assert (L : len ws = len ss).
    { unfold ws, vadd. rewrite map_length, combine_length. destruct Ra as [La _], Rb as [Lb _]. change (ks_exps (pm_sem D)) with (pm_exps D). lia. }
    rewrite L in F. destruct (pm_hash_homomorphic D ss a b _ _ HD Ra Rb) as (_ & _ & H). destruct (H F) as (r & E & Hh & _).
    destruct (mul_ok D ss a b _ _ HD Ra Rb F) as (r' & E' & R'). rewrite E in E'. inversion E'; subst r'.
    exists r. split; [exact E|]. destruct (XR _ _ _ R') as [X1 X2]. split; [exact X1|]. split; [exact X2|exact Hh].
  - intros ra ss r1 r2 F1 F2. rewrite Forall_forall in F1, F2.
    destruct (pm_overflow_check_exact D ra ss r1 r2 HD F1 F2) as [A B]. split; [exact A|].
    intros v Hv. destruct (B v Hv) as (b & -> & Hb). exists b. split; [reflexivity|]. rewrite Hb. split.
    + intros H p q Ip Iq. pose proof (VR _ _ (F1 p Ip)) as Rp. pose proof (VR _ _ (F2 q Iq)) as Rq. split; [|exact I].
      change (ks_exps (pm_sem D)) with (pm_exps D).
      assert (L : len (vadd (pm_exps D (len ss) p) (pm_exps D (len ss) q)) = len ss).
      { unfold vadd. rewrite map_length, combine_length. destruct Rp as [La _], Rq as [Lb _]. lia. }
      split; rewrite L; [destruct Rp as (_ & M & _); exact M|]. eapply H; eauto.
    + intros H p q vs ws Ip Iq Rp Rq. destruct (H p q Ip Iq) as [[_ G] _]. change (ks_exps (pm_sem D)) with (pm_exps D) in G.
      rewrite (pm_exps_rep D _ p vs HD Rp), (pm_exps_rep D _ q ws HD Rq) in G.
      assert (L : len (vadd vs ws) = len ss).
      { unfold vadd. rewrite map_length, combine_length. destruct Rp as [La _], Rq as [Lb _]. lia. }
      rewrite L in G. exact G.
  - intros k ss n V ws. pose proof (VR _ _ V) as R. destruct (pm_pow_exact D ss k _ n HD R) as (A & B & B2).
    assert (L : len ws = len ss). { unfold ws, vscale. rewrite map_length. destruct R as [L _]. exact L. }
    pose proof R as (_ & M & _). split; [|split; [|exact B2]].
    + intros [_ F]. rewrite L in F. destruct (A F) as (r & E & R'). exists r. split; [exact E|]. apply XR. exact R'.
    + intros F. apply B. intros F'. apply F. cbn [pm_sem ks_fits]. split; rewrite L; auto.
  - intros k ss idx V Hi vs e. pose proof (VR _ _ V) as R. destruct (pm_diff_exact D ss k _ idx HD R Hi) as (A & B & B2).
    pose proof R as (L & M & F & _). change (ks_exps (pm_sem D)) with (pm_exps D) in vs.
    assert (Q : ks_fits (pm_sem D) (set_at idx (e - 1) vs) <-> comp_ok D (len ss) (e - 1)).
    { cbn [pm_sem ks_fits]. unfold representable. rewrite set_at_len by (unfold vs; lia). unfold vs. rewrite L.
      rewrite set_at_forall by (auto; lia). tauto. }
    split; [exact A|]. rewrite Q. split; [|exact B2]. intros N F'. destruct (B N F') as (r & E & R'). exists r. split; [exact E|]. apply XR. exact R'.
  - intros k ss idx V Hi vs e. pose proof (VR _ _ V) as R. destruct (pm_integrate_exact D ss k _ idx HD R Hi) as (A & B & B2).
    pose proof R as (L & M & F & _). change (ks_exps (pm_sem D)) with (pm_exps D) in vs.
    assert (Q : ks_fits (pm_sem D) (set_at idx (e + 1) vs) <-> comp_ok D (len ss) (e + 1)).
    { cbn [pm_sem ks_fits]. unfold representable. rewrite set_at_len by (unfold vs; lia). unfold vs. rewrite L.
      rewrite set_at_forall by (auto; lia). tauto. }
    split; [exact A|]. rewrite Q. split; [|exact B]. intros N F'. destruct (B2 N F') as (r & E & R' & _). exists r. split; [exact E|]. apply XR. exact R'.
  - intros W U vone vmul vpow pw k ss xs V L vs H. destruct (pm_evaluate_exact W U D vone vmul vpow ss k _ xs HD (VR _ _ V) L) as [A _].
    apply A. exact H.
  - intros W U vone vmul vpow pw k ss sm V S B vs H.
    destruct (pm_subs_exact W U D vone vmul vpow pw ss k _ sm HD (VR _ _ V) S B H) as (q & E & R). exists q. split; [exact E|]. apply XR. exact R.
Qed.

Theorem dpm_key_laws D ps : packable D -> psize_ok D ps -> key_laws (dpm_ops D ps) (dpm_sem D ps).
Proof.
  intros HD G.
  assert (VR : forall n p, ks_valid (dpm_sem D ps) n p -> drepresents D ps n p (dpm_exps D ps n p)) by (intros; apply dpm_valid_rep; auto).
  assert (XR : forall n p vs, drepresents D ps n p vs -> (exists vs, drepresents D ps n p vs) /\ dpm_exps D ps n p = vs).
  { intros n p vs R. split; [eauto|]. apply dpm_exps_rep; auto. }
  split.
  - apply dpm_eq_iff.
  - intros k. cbn [dpm_ops k_hash]. unfold dpm_hash. rewrite <- fold_left_rev_right. destruct (rev k); cbn [fold_right]; [lia|].
    unfold wrap at 1. cbn [sgnd size_t uint64 bits andb]. apply Z.mod_pos_bound. lia.
  - intros n k V. destruct (VR n k V) as [L _]. exact L.
  - intros n k V. destruct (VR n k V) as (L & F & _). exact F.
  - intros n k k' V V' E. destruct (VR n k V) as (_ & _ & E1), (VR n k' V') as (_ & _ & E2).
    cbn [dpm_sem ks_exps] in E. rewrite E in E1. congruence.
  - intros vs F. assert (R : drepresents D ps (len vs) (dcode D ps vs) vs) by (repeat split; auto).
    exists (dcode D ps vs). apply XR. exact R.
  - intros vs. apply comp_dec.
  - intros vs. apply psum_dec.
  - intros k ss. destruct (dpm_compatible_sound_partial D ps k ss HD G) as (A & (b & E & _) & _). exists b. split; [exact E|].
    intros [vs R]. rewrite (A vs R) in E. congruence.
  - reflexivity.
  - intros k ss V. destruct (dpm_unit_exact D ps ss k (dpm_exps D ps (len ss) k) HD G) as (_ & _ & H). apply (H (VR _ _ V)).
  - intros ss _. destruct (dpm_unit_exact D ps ss [] [] HD G) as (R & _). apply XR. exact R.
  - intros k s m V MO ws. pose proof (VR _ _ V) as R.
    destruct (dpm_merge_symbols_exact D ps s k _ m HD G R MO) as ((r & E & R') & _). split.
    + intros F. exists r. split; [exact E|]. apply XR. exact R'.
    + intros F. elim F. destruct R' as (_ & F' & _). exact F'.
  - intros k ss V vs. apply (dpm_degree_exact D ps ss k _ HD G (VR _ _ V)).
  - intros k ss si V S vs. apply (dpm_p_degree_exact D ps ss k _ si HD G (VR _ _ V) S).
  - intros ss ks F.
    destruct (dpm_trim_identify_exact D ps ss (map (fun k => (k, dpm_exps D ps (len ss) k)) ks) HD G) as (v & E & L & H).
    { apply Forall_forall. intros t I. apply in_map_iff in I as (k & <- & I). apply VR. rewrite Forall_forall in F. apply F. exact I. }
    rewrite map_map, map_id in E. exists v. split; [exact E|]. split; [exact L|]. intros i Hi. destruct (H i Hi) as [H1 H2].
    split; [|exact H2]. rewrite H1. split; intros X.
    + intros k I. apply (X (k, dpm_exps D ps (len ss) k)). apply in_map_iff. eauto.
    + intros t I. apply in_map_iff in I as (k & <- & I). apply X. exact I.
  - intros k ss si V S B. destruct (dpm_trim_exact D ps ss k _ si HD G (VR _ _ V) S B) as (r & E & R & _).
    exists r. split; [exact E|]. apply XR. exact R.
  - intros a b ss Va Vb ws F. pose proof (VR _ _ Va) as Ra. pose proof (VR _ _ Vb) as Rb.
    destruct (dpm_hash_homomorphic D ps (len ss) a b _ _ HD G Ra Rb) as (_ & _ & H). destruct (H F) as (r & E & Hh & _).
    destruct (dmul_rep D ps HD G (len ss) a b _ _ Ra Rb F) as (E' & R'). rewrite E in E'. inversion E'; subst r.
    eexists. split; [exact E|]. destruct (XR _ _ _ R') as [X1 X2]. split; [exact X1|]. split; [exact X2|exact Hh].
  - intros ra ss r1 r2 F1 F2. rewrite Forall_forall in F1, F2.
    destruct (dpm_overflow_check_exact D ps ra ss r1 r2 HD G F1 F2) as [A B]. split; [exact A|].
    intros v Hv. destruct (B v Hv) as (b & -> & Hb). exists b. split; [reflexivity|]. rewrite Hb. split.
    + intros H p q Ip Iq. apply (H p q _ _ Ip Iq (VR _ _ (F1 p Ip)) (VR _ _ (F2 q Iq))).
    + intros H p q vs ws Ip Iq Rp Rq. specialize (H p q Ip Iq). cbn [dpm_sem ks_exps ks_fits ks_total_ok] in H.
      rewrite (dpm_exps_rep D ps _ p vs HD G Rp), (dpm_exps_rep D ps _ q ws HD G Rq) in H. exact H.
  - intros k ss n V ws. destruct (dpm_pow_exact D ps ss k _ n HD G (VR _ _ V)) as (A & B & B2).
    split; [|split; [exact B|exact B2]]. intros F. destruct (A F) as (r & E & R'). exists r. split; [exact E|]. apply XR. exact R'.
  - intros k ss idx V Hi vs e. pose proof (VR _ _ V) as R. destruct (dpm_diff_exact D ps ss k _ idx HD G R Hi) as (A & B & B2).
    pose proof R as (L & F & _). change (ks_exps (dpm_sem D ps)) with (dpm_exps D ps) in vs.
    assert (Q : ks_fits (dpm_sem D ps) (set_at idx (e - 1) vs) <-> comp_ok D ps (e - 1)).
    { apply set_at_forall; auto. unfold vs. lia. }
    split; [exact A|]. rewrite Q. split; [|exact B2]. intros N F'. destruct (B N F') as (r & E & R'). exists r. split; [exact E|]. apply XR. exact R'.
  - intros k ss idx V Hi vs e. pose proof (VR _ _ V) as R. destruct (dpm_integrate_exact D ps ss k _ idx HD G R Hi) as (A & B & B2).
    pose proof R as (L & F & _). change (ks_exps (dpm_sem D ps)) with (dpm_exps D ps) in vs.
    assert (Q : ks_fits (dpm_sem D ps) (set_at idx (e + 1) vs) <-> comp_ok D ps (e + 1)).
    { apply set_at_forall; auto. unfold vs. lia. }
    split; [exact A|]. rewrite Q. split; [|exact B]. intros N F'. destruct (B2 N F') as (r & E & R' & _). exists r. split; [exact E|]. apply XR. exact R'.
  - intros W U vone vmul vpow pw k ss xs V L vs H. apply (dpm_evaluate_exact W U D ps vone vmul vpow pw ss k _ xs HD G (VR _ _ V) L). exact H.
  - intros W U vone vmul vpow pw k ss sm V S B vs H.
    destruct (dpm_subs_exact W U D ps vone vmul vpow pw ss k _ sm HD G (VR _ _ V) S B H) as (q & E & R). exists q. split; [exact E|]. apply XR. exact R.
Qed.
