(** Proofs about the estimate of the size of a product. *)
From Coq Require Import ZArith List Bool String Arith Lia Permutation Sorted.
From Verif Require Import Base SymSpec SymModel PMonSpec KeyOps SeriesModel SeriesSpec PolyModel PolySpec PolyProofs PolyProofs2 PolyProofs6 SeriesProofs SeriesProofs2 SeriesProofs5 PolyProofs5 PolyProofs4 PolyProofs3 EstModel.
Import ListNotations.
Open Scope Z_scope.

(** Sums. *)
Fixpoint zsum {A} (f : A -> Z) (l : list A) : Z := match l with [] => 0 | a :: l => f a + zsum f l end.
Lemma zsum_app {A} (f : A -> Z) l1 l2 : zsum f (l1 ++ l2) = zsum f l1 + zsum f l2.
Proof. induction l1 as [|a l1 IH]; cbn; [reflexivity|]. rewrite IH. lia. Qed.

(** A reduction whose blocks add a bounded amount. *)
Lemma reduce_bound {A} (body : list A -> Z -> res Z) (B : Z) :
  (forall l cur, exists r, body l cur = Ok r /\ cur <= r /\ 2 * r <= 2 * cur + Z.of_nat (len l) * B) ->
  forall cur l r, reduce body cur l r -> exists v, r = Ok v /\ cur <= v /\ 2 * v <= 2 * cur + Z.of_nat (len l) * B.
Proof.
  intros H. induction 1 as [cur l|cur l1 l2 c1 r R1 I1 R2 I2|cur l1 l2 a b R1 I1 R2 I2|cur l1 l2 r R1 I1 N|cur c l1 l2 r R1 I1 N]; [apply H|..]; rewrite ?app_length, ?Nat2Z.inj_add.
  - destruct I1 as (v & E1 & B1). injection E1 as ->. destruct I2 as (w & -> & B2). exists w. split; [reflexivity|lia].
  - destruct I1 as (v & E1 & B1). injection E1 as ->. destruct I2 as (w & E2 & B2). injection E2 as ->. exists (v + w). split; [reflexivity|lia].
  - destruct I1 as (v & -> & _). discriminate.
  - destruct I1 as (v & -> & _). discriminate.
Qed.
Lemma reduce_sum {A} (P : A -> Prop) (f : A -> Z) (body : list A -> Z -> res Z) :
  (forall l cur, Forall P l -> body l cur = Ok (cur + zsum f l)) ->
  forall cur l r, reduce body cur l r -> Forall P l -> r = Ok (cur + zsum f l).
Proof.
  intros H. induction 1 as [cur l|cur l1 l2 c1 r R1 I1 R2 I2|cur l1 l2 a b R1 I1 R2 I2|cur l1 l2 r R1 I1 N|cur c l1 l2 r R1 I1 N]; intros F; [apply H, F|..]; apply Forall_app in F as [F1 F2]; rewrite ?zsum_app.
  - specialize (I1 F1). injection I1 as ->. rewrite (I2 F2). f_equal. lia.
  - specialize (I1 F1). injection I1 as ->. specialize (I2 F2). injection I2 as ->. f_equal. lia.
  - rewrite (I1 F1) in N. discriminate.
  - rewrite (I1 F2) in N. discriminate.
Qed.

Section Est.
Context {K C Tag : Type} (KO : key_ops K) (KS : key_sem K) (E : mul_env K C Tag) (R : rand).
Hypothesis KL : key_laws KO KS.
Hypothesis EO : env_ok KO KS E.
Notation term := (K * C)%type.
Variable sel : string -> bool.
Variable lim : Z.
Variable t : option (trunc K).
Variable u : symbol_set.
Hypothesis TE : match t with None => True | Some t => trunc_exact KS sel lim u t end.
Notation DD := (@PolyProofs6.D K C KS sel u).
Notation kp := (keep DD lim t).
Notation exps := (ks_exps KS (len u)).
Variables v1 v2 : list term.
Hypothesis NE : v2 <> [].
Hypothesis LE : (len v1 <= len v2)%nat.
Hypothesis V1 : all_valid KS u v1.
Hypothesis V2 : all_valid KS u v2.
Hypothesis AP : all_pairs KS u v1 v2.
Hypothesis DG : t <> None -> deg_ok KS sel u v1 /\ deg_ok KS sel u v2.
Hypothesis RS : forall i l, Permutation (r_shuffle R i l) l.
Hypothesis RP : forall i lims n, (0 < n)%nat -> (r_pick R i lims n < n)%nat.

Definition lim_of (a : term) : nat := len (filter (fun b => kp (a, b)) v2).
Lemma lim_of_le a : (lim_of a <= len v2)%nat.
Proof. apply filter_len. Qed.

(** What the data must satisfy. *)
Definition data_ok (d1 : list Z) (vi : list nat) (d2 : list Z) : Prop :=
  len vi = len v2 /\ Forall (fun i => (i < len v2)%nat) vi /\
  forall i a, nth_error v1 i = Some a -> est_limit t d1 vi d2 i = Ok (lim_of a).

Lemma seq_lt n i : In i (seq 0 n) -> (i < n)%nat.
Proof. intros I. apply in_seq in I. lia. Qed.

Lemma data_fine : exists d1 vi d2, est_data E t u v1 v2 = Ok (d1, (vi, d2)) /\ data_ok d1 vi d2.
Proof.
  assert (HT : (exists t0, t = Some t0) \/ t = None) by (destruct t; eauto). unfold est_data, data_ok. destruct HT as [(tt0 & Ht)|Ht].
  - destruct (DG ltac:(congruence)) as [D1 D2]. rewrite Ht.
    pose proof (@deg_vec K C KS sel lim t u TE tt0 Ht) as DV.
    unfold degree_vector at 1. rewrite (rmap_all _ DD) by (apply DV; auto). cbn [bind].
    destruct (degree_sorted_ok E (eo_perm _ _ _ EO) (eo_sorted _ _ _ EO) DD tt0 u v2 NE (DV v2 V2 D2)) as (v2' & E2 & P2 & S2).
    assert (Ed : degree_vector tt0 u v2 = Ok (map DD v2)) by (unfold degree_vector; apply rmap_all, DV; auto).
    unfold degree_sorted in E2. rewrite Ed in *. cbn [bind] in *. rewrite ?map_length in E2.
    set (vi := me_sort E _ (seq 0 (len v2))) in *.
    destruct (permuted (map DD v2) vi) as [vd2'| |] eqn:Ep; cbn [bind] in *; try discriminate. destruct (permuted v2 vi) as [w| |]; cbn [bind] in E2; try discriminate. injection E2 as -> ->.
    exists (map DD v1), vi, (map DD v2'). split; [reflexivity|].
    assert (Pv : Permutation vi (seq 0 (len v2))) by apply (eo_perm _ _ _ EO).
    split; [rewrite (Permutation_length Pv), seq_length; reflexivity|].
    split; [apply Forall_forall; intros i I; apply seq_lt; eapply Permutation_in; eauto|].
    intros i a Ea. unfold est_limit.
    assert (Ei : nth_error (map DD v1) i = Some (DD a)) by (rewrite nth_error_map, Ea; reflexivity). rewrite (proj2 (rd_some _ _ _) Ei). cbn [bind]. rewrite map_length.
    pose proof (over KS sel lim t u TE tt0 Ht v1 v2' V1 (perm_all_valid KS u _ _ P2 V2) (perm_all_pairs KS u _ _ _ _ (Permutation_refl _) P2 AP) D1 (perm_deg_ok KS sel u _ _ P2 D2)) as OV.
    destruct (upper_ok DD lim tt0 v1 v2' a 0 (len v2') OV) as (m & -> & _ & _ & Nm); [eapply nth_error_In; eauto|lia|rewrite slice_whole; exact S2|]. f_equal.
    rewrite slice_whole in Nm. unfold lim_of. rewrite Ht. cbn [keep fst snd].
    change (fun b => within DD lim a b) with (within DD lim a).
    rewrite (Permutation_length (filter_perm (within DD lim a) _ _ P2)) in Nm. lia.
  - rewrite Ht. exists [], (seq 0 (len v2)), []. split; [reflexivity|]. split; [apply seq_length|]. split; [apply Forall_forall; intros i I; apply seq_lt, I|].
    intros i a Ea. unfold est_limit, lim_of. rewrite Ht, seq_length. f_equal. cbn [keep]. clear. induction v2 as [|b l IH]; cbn; [reflexivity|]. f_equal. exact IH.
Qed.

Section Data.
Variables (d1 : list Z) (vi : list nat) (d2 : list Z).
Hypothesis OK : data_ok d1 vi d2.

Definition limn (i : nat) : Z := match nth_error v1 i with Some a => Z.of_nat (lim_of a) | None => 0 end.
Lemma limit_at i : (i < len v1)%nat -> exists a, nth_error v1 i = Some a /\ est_limit t d1 vi d2 i = Ok (lim_of a) /\ limn i = Z.of_nat (lim_of a).
Proof.
  intros L. destruct (nth_error v1 i) as [a|] eqn:Ea; [|apply nth_error_None in Ea; lia]. exists a. split; [reflexivity|]. destruct OK as (_ & _ & H). split; [apply H, Ea|]. unfold limn. rewrite Ea. reflexivity.
Qed.

Lemma mults_block_ok l cur : Forall (fun i => (i < len v1)%nat) l -> mults_block t d1 vi d2 l cur = Ok (cur + zsum limn l).
Proof.
  unfold mults_block. revert cur. induction l as [|i l IH]; intros cur F; cbn [rfold zsum]; [f_equal; lia|]. inversion F; subst.
  destruct (limit_at i) as (a & _ & -> & ->); [assumption|]. cbn [bind]. rewrite IH by assumption. f_equal. lia.
Qed.
Lemma zsum_limn : zsum limn (seq 0 (len v1)) = Z.of_nat (len (filter kp (list_prod v1 v2))).
Proof.
  unfold limn.
  assert (X : forall w pre, zsum (fun i => match nth_error (pre ++ w) i with Some a => Z.of_nat (lim_of a) | None => 0 end) (seq (len pre) (len w)) = Z.of_nat (len (filter kp (list_prod w v2)))).
  { induction w as [|a w IH]; intros pre; [reflexivity|]. cbn [len seq zsum]. rewrite nth_error_app2, Nat.sub_diag by lia. cbn [nth_error].
    specialize (IH (pre ++ [a])). rewrite <- app_assoc in IH. cbn [app] in IH. rewrite app_length in IH. cbn [len] in IH. rewrite Nat.add_1_r in IH. rewrite IH.
    rewrite filter_prod_cons, app_length, map_length, Nat2Z.inj_add. f_equal. }
  apply (X v1 []).
Qed.

Lemma total r : tot_n_mults t v1 d1 vi d2 r -> r = Ok (Z.of_nat (len (filter kp (list_prod v1 v2)))).
Proof.
  intros [Ht|r0 Ht H].
  - f_equal. rewrite <- Nat2Z.inj_mul. f_equal. rewrite Ht. unfold keep. destruct OK as (-> & _).
    assert (X : forall l : list (term * term), filter (fun _ => true) l = l) by (induction l as [|z l IH]; cbn; congruence). rewrite X, prod_length. reflexivity.
  - rewrite (reduce_sum (fun i => (i < len v1)%nat) limn _ mults_block_ok _ _ _ H); [rewrite zsum_limn; reflexivity|]. apply Forall_forall. intros i I. apply seq_lt, I.
Qed.
Lemma total_ex : exists r, tot_n_mults t v1 d1 vi d2 r.
Proof.
  assert (HT : t <> None \/ t = None) by (destruct t; [left; discriminate|right; reflexivity]). destruct HT as [Ht|Ht].
  - eexists. apply tm_trunc; [exact Ht|apply red_run].
  - eexists. apply tm_all, Ht.
Qed.

(** The products of one trial. *)
Lemma products_ok i : forall idxs lims ls acc, Forall (fun j => (j < len v1)%nat) idxs -> exists ls' acc',
  est_products KO R t u v1 v2 d1 vi d2 i idxs lims ls acc = Ok (ls', acc') /\
  (len ls <= len ls' <= len ls + len idxs)%nat /\ acc <= acc' <= acc + zsum limn idxs.
Proof.
  induction idxs as [|j idxs IH]; intros lims ls acc F; cbn [est_products zsum]; [exists ls, acc; split; [reflexivity|cbn; lia]|]. inversion F as [|? ? Hj F']; subst.
  destruct (limit_at j Hj) as (a & Ea & -> & Lj). cbn [bind]. rewrite Lj.
  destruct (Nat.eqb_spec (lim_of a) 0) as [Z0|NZ].
  { destruct (IH lims ls acc F') as (ls' & acc' & -> & B1 & B2). exists ls', acc'. split; [reflexivity|]. cbn [len]. lia. }
  destruct OK as (Lv & Fv & _).
  assert (PB : (r_pick R i lims (lim_of a) < len vi)%nat). { specialize (RP i lims (lim_of a) ltac:(lia)). pose proof (lim_of_le a). lia. }
  destruct (nth_error vi (r_pick R i lims (lim_of a))) as [j2|] eqn:E2; [|apply nth_error_None in E2; lia]. rewrite (proj2 (rd_some _ _ _) E2). cbn [bind].
  rewrite (proj2 (rd_some _ _ _) Ea). cbn [bind].
  assert (H2 : (j2 < len v2)%nat) by (rewrite Forall_forall in Fv; apply Fv; eapply nth_error_In; eauto).
  destruct (nth_error v2 j2) as [b|] eqn:Eb; [|apply nth_error_None in Eb; lia]. rewrite (proj2 (rd_some _ _ _) Eb). cbn [bind].
  assert (Ia : In a v1) by (eapply nth_error_In; eauto). assert (Ib : In b v2) by (eapply nth_error_In; eauto).
  destruct (AP a b Ia Ib) as [FF TT].
  destruct (kl_mul _ _ KL (fst a) (fst b) u (V1 a Ia) (V2 b Ib) FF) as (k & -> & _). cbn [bind].
  destruct (existsb (k_eqb KO k) ls).
  - exists ls, (acc + Z.of_nat (lim_of a)). split; [reflexivity|]. cbn [len]. split; [lia|].
    assert (0 <= zsum limn idxs). { clear. induction idxs as [|i l IH]; cbn; [lia|]. unfold limn at 1. destruct (nth_error v1 i); lia. } lia.
  - destruct (IH (lim_of a :: lims) (k :: ls) (acc + Z.of_nat (lim_of a)) F') as (ls' & acc' & -> & B1 & B2). exists ls', acc'. split; [reflexivity|]. cbn [len] in *. lia.
Qed.

Lemma zsum_perm {A} (f : A -> Z) l l' : Permutation l l' -> zsum f l = zsum f l'.
Proof. induction 1; cbn; lia. Qed.

Notation N1 := (Z.of_nat (len v1)).
Notation N2 := (Z.of_nat (len v2)).
Lemma trial_ok i idxs : Permutation idxs (seq 0 (len v1)) -> exists c, est_trial KO R t u v1 v2 d1 vi d2 i idxs = Ok c /\ 0 <= c /\ 2 * c <= 3 * N1 * N2.
Proof.
  intros P. unfold est_trial.
  destruct (products_ok i idxs [] [] 0) as (ls & acc & -> & B1 & B2).
  { apply Forall_forall. intros j I. apply seq_lt. eapply Permutation_in; eauto. }
  cbn [bind]. rewrite (zsum_perm limn _ _ P), zsum_limn in B2. rewrite (Permutation_length P), seq_length in *.
  pose proof (filter_prod_len KS sel lim t u v1 v2) as FL.
  eexists. split; [reflexivity|]. destruct (Nat.eqb_spec (len ls) (len v1)) as [Q|Q].
  - split; [lia|]. nia.
  - set (c := Z.of_nat (len ls)). assert (0 <= c <= N1) by (cbn [len] in B1; lia). assert (c <= N2) by lia. split; [apply Z.div_pos; nia|].
    pose proof (Z.mul_div_le (3 * c * c) 2 ltac:(lia)). nia.
Qed.

Lemma block_ok l cur : exists r, est_block KO R t u v1 v2 d1 vi d2 l cur = Ok r /\ cur <= r /\ 2 * r <= 2 * cur + Z.of_nat (len l) * (3 * N1 * N2).
Proof.
  unfold est_block. set (f := fun '(vidx1_copy, cur) i => _).
  assert (X : forall l idxs cur, Permutation idxs (seq 0 (len v1)) -> exists idxs' r, rfold f l (idxs, cur) = Ok (idxs', r) /\ cur <= r /\ 2 * r <= 2 * cur + Z.of_nat (len l) * (3 * N1 * N2)).
  { clear l cur. induction l as [|i l IH]; intros idxs cur P; cbn [rfold]; [exists idxs, cur; split; [reflexivity|cbn; lia]|].
    unfold f at 1. destruct (trial_ok i (r_shuffle R i idxs)) as (c & -> & C0 & C1); [etransitivity; [apply RS|exact P]|]. cbn [bind].
    destruct (IH (r_shuffle R i idxs) (cur + c)) as (idxs' & r & -> & B1 & B2); [etransitivity; [apply RS|exact P]|].
    exists idxs', r. split; [reflexivity|]. cbn [len]. lia. }
  destruct (X l (seq 0 (len v1)) cur (Permutation_refl _)) as (idxs' & r & -> & B). cbn [bind]. exists r. split; [reflexivity|exact B].
Qed.
End Data.

Notation NN := (Z.of_nat (len (filter kp (list_prod v1 v2)))).
Lemma estimate_ok : v1 <> [] ->
  (exists o, estimate KO E R t u v1 v2 o) /\
  forall o, estimate KO E R t u v1 v2 o -> (o = Throw bad_numeric_cast /\ r_cast R NN = None) \/
    exists est, o = Ok (est, NN) /\ 1 <= est /\ 2 * est <= 3 * Z.of_nat (len v1) * Z.of_nat (len v2).
Proof.
  intros NX. destruct data_fine as (d1 & vi & d2 & ED & OK). split.
  - destruct (total_ex d1 vi d2) as (r & HT). pose proof (total d1 vi d2 OK r HT) as ->.
    destruct (r_cast R NN) as [n|] eqn:EC; eexists; [eapply es_trials|eapply es_cast]; eauto using red_run.
  - assert (P1 : (0 < len v1)%nat) by (destruct v1; [contradiction|cbn; lia]). assert (P2 : (0 < len v2)%nat) by (destruct v2; [contradiction|cbn; lia]).
    intros o H. inversion H as [e X|X|a b c e X T|a b c X T|a b c tot X T RC|a b c tot n r X T RC n' RD]; subst; rewrite ED in X; try discriminate;
      assert (a = d1 /\ b = vi /\ c = d2) as (-> & -> & ->) by (injection X; auto); apply (total _ _ _ OK) in T; try discriminate.
    + left. injection T as ->. auto.
    + right. injection T as ->. apply (reduce_bound _ (3 * Z.of_nat (len v1) * Z.of_nat (len v2))) in RD; [|apply block_ok; exact OK].
      destruct RD as (v & -> & B0 & B1). cbn [bind]. rewrite seq_length in B1. assert (5 <= n')%nat by (unfold n'; lia). clearbody n'.
      destruct (Nat.eqb_spec n' 0) as [Z0|_]; [lia|]. set (Q := 3 * Z.of_nat (len v1) * Z.of_nat (len v2)) in *. assert (Q3 : 3 <= Q) by (unfold Q; nia). clearbody Q.
      assert (D0 : 0 <= v / Z.of_nat n') by (apply Z.div_pos; lia). assert (D1 : 2 * (v / Z.of_nat n') <= Q). { pose proof (Z.mul_div_le v (Z.of_nat n') ltac:(lia)). nia. }
      destruct (Z.eqb_spec (v / Z.of_nat n') 0) as [Z0|NZ]; eexists; (split; [reflexivity|lia]).
Qed.
End Est.
