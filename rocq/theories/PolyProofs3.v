(** Segments of sorted vectors of terms. *)
From Coq Require Import ZArith List Bool String Arith Lia Permutation Sorted.
From Verif Require Import Base SymModel KeyOps SeriesModel PolyModel PolyProofs SeriesProofs SeriesProofs2 SeriesEval PolyProofs2.
Import ListNotations.
Open Scope Z_scope.
Notation len := List.length.

Fixpoint chain (off : nat) (vseg : list vsegment) (n : nat) : Prop :=
  match vseg with
  | [] => off = n
  | r :: rest => sg_begin r = off /\ (off <= sg_end r)%nat /\ chain (sg_end r) rest n
  end.

Definition rslice {A} (l : list A) (r : vsegment) : list A := slice l (sg_begin r) (sg_end r).

Lemma chain_le vseg : forall off n, chain off vseg n -> (off <= n)%nat.
Proof. induction vseg as [|r vseg IH]; cbn; intros off n H; [lia|]. destruct H as (_ & L & H). apply IH in H. lia. Qed.

Lemma chain_concat {A} (l : list A) vseg : forall off, chain off vseg (len l) -> skipn off l = List.concat (map (rslice l) vseg).
Proof.
  induction vseg as [|r vseg IH]; cbn; intros off H.
  - subst off. apply skipn_all.
  - destruct H as (B & L & H). rewrite <- (IH _ H). unfold rslice. rewrite B. apply slice_split. exact L.
Qed.

Lemma chain_in r vseg : forall off n, chain off vseg n -> In r vseg -> (off <= sg_begin r <= sg_end r)%nat /\ (sg_end r <= n)%nat.
Proof.
  induction vseg as [|q vseg IH]; cbn; intros off n H I; [contradiction|]. destruct H as (B & L & H). destruct I as [->|I].
  - apply chain_le in H. lia.
  - apply (IH _ _ H) in I. lia.
Qed.

Section Seg.
Context {K C Tag : Type} (KO : key_ops K) (E : mul_env K C Tag).
Notation term := (K * C)%type.
Hypothesis SP : forall (A : Type) (f : A -> Z) l, Permutation (me_sort E f l) l.
Hypothesis SS : forall (A : Type) (f : A -> Z) l, StronglySorted (fun a b => f a <= f b) (me_sort E f l).
Variable log2 : nat.
Notation seg := (seg_of (C := C) KO log2).
Notation nsegs := (2 ^ log2)%nat.

Lemma seg_lt e : (seg e < nsegs)%nat.
Proof.
  unfold seg_of. assert (0 < 2 ^ Z.of_nat log2) by (apply Z.pow_pos_nonneg; lia). pose proof (Z.mod_pos_bound (k_hash KO (fst e)) _ H).
  apply Nat2Z.inj_lt. rewrite Z2Nat.id by lia. rewrite Nat2Z.inj_pow. cbn. lia.
Qed.

Definition by_seg (v : list term) : Prop := StronglySorted (fun a b => Z.of_nat (seg a) <= Z.of_nat (seg b)) v.
Definition seg_const (v : list term) (r : vsegment) : Prop := forall x, In x (rslice v r) -> seg x = sg_idx r.
Record vseg_ok (v : list term) (vseg : list vsegment) : Prop := {
  vo_chain : chain 0 vseg (len v);
  vo_const : forall r, In r vseg -> seg_const v r;
  vo_sorted : StronglySorted lt (map sg_idx vseg);
  vo_lt : forall r, In r vseg -> (sg_idx r < nsegs)%nat
}.

Lemma sorted_skipn {A} (R : A -> A -> Prop) l : forall i, StronglySorted R l -> StronglySorted R (skipn i l).
Proof. intros i S. revert i. induction S as [|x l S IH F]; intros [|i]; cbn; try constructor; auto. Qed.

Lemma seg_upper_ok v b it : by_seg v -> (it <= len v)%nat -> (forall x, In x (skipn it v) -> (b <= seg x)%nat) ->
  exists e, seg_upper KO log2 v b it = Ok e /\ (it <= e <= len v)%nat /\ (forall x, In x (slice v it e) -> seg x = b) /\
    (forall x, In x (skipn e v) -> (b < seg x)%nat) /\ (forall x, nth_error v it = Some x -> seg x = b -> (it < e)%nat).
Proof.
  intros S L H.
  assert (SL : skipn it v = slice v it (len v)). { unfold slice. symmetry. apply firstn_all2. rewrite skipn_length. lia. }
  assert (Sv : by_seg (slice v it (len v))) by (rewrite <- SL; apply sorted_skipn; exact S).
  destruct (sorted_prefix (fun x => Z.of_nat (seg x)) (Z.of_nat b) _ Sv) as [P1 P2].
  set (n := len (filter _ _)) in *.
  assert (N : (n <= len v - it)%nat). { rewrite <- (slice_len v it (len v)) by lia. unfold n. clear. induction (slice v it (len v)) as [|x l IH]; cbn; [lia|]. destruct (_ <=? _); cbn; lia. }
  assert (J : forall j x, (it <= j < len v)%nat -> nth_error v j = Some x -> (Z.of_nat (seg x) <=? Z.of_nat b) = (j <? it + n)%nat).
  { intros j x Hj Ej. specialize (P2 (j - it)%nat x). rewrite nth_error_slice in P2 by lia. replace (it + (j - it))%nat with j in P2 by lia.
    rewrite (P2 Ej). destruct (Nat.ltb_spec (j - it) n), (Nat.ltb_spec j (it + n)); try reflexivity; lia. }
  exists (it + n)%nat. split; [|split; [lia|split; [|split]]].
  - unfold seg_upper. apply search_ok; [lia|]. intros j Hj. destruct (nth_error v j) as [x|] eqn:Ej; [|apply nth_error_None in Ej; lia].
    pose proof Ej as Er. apply rd_some in Er. rewrite Er. cbn [bind]. f_equal. rewrite <- (J j x) by (auto; lia).
    destruct (Nat.ltb_spec b (seg x)), (Z.leb_spec (Z.of_nat (seg x)) (Z.of_nat b)); cbn; try reflexivity; lia.
  - intros x I. pose proof I as I'. apply In_nth_error in I as [i Ei]. assert (Li : (i < n)%nat). { assert (i < len (slice v it (it + n)))%nat by (apply nth_error_Some; congruence). rewrite slice_len in H0 by lia. lia. }
    rewrite nth_error_slice in Ei by lia. specialize (J (it + i)%nat x ltac:(lia) Ei).
    assert (In x (skipn it v)) by (apply (nth_error_In _ i); rewrite nth_error_skipn; exact Ei). specialize (H x H0).
    destruct (Nat.ltb_spec (it + i) (it + n)); [|lia]. apply Z.leb_le in J. lia.
  - intros x I. apply In_nth_error in I as [i Ei]. rewrite nth_error_skipn in Ei.
    assert ((it + n + i < len v)%nat) by (apply nth_error_Some; congruence). specialize (J (it + n + i)%nat x ltac:(lia) Ei).
    destruct (Nat.ltb_spec (it + n + i) (it + n)); [lia|]. apply Z.leb_gt in J. lia.
  - intros x Ex Sx. assert ((it < len v)%nat) by (apply nth_error_Some; congruence). specialize (J it x ltac:(lia) Ex).
    rewrite Sx in J. rewrite Z.leb_refl in J. symmetry in J. apply Nat.ltb_lt in J. lia.
Qed.

Lemma vseg_dense_ok v : by_seg v -> forall n i it, (it <= len v)%nat -> (forall x, In x (skipn it v) -> (i <= seg x < i + n)%nat) ->
  exists vseg, vseg_dense KO log2 v it (seq i n) = Ok vseg /\ chain it vseg (len v) /\ (forall r, In r vseg -> seg_const v r) /\ map sg_idx vseg = seq i n.
Proof.
  intros S. induction n as [|n IH]; intros i it L H; cbn [seq vseg_dense].
  - exists []. split; [reflexivity|]. cbn. split; [|split; [contradiction|reflexivity]].
    destruct (Nat.eq_dec it (len v)) as [|NE]; [assumption|]. exfalso.
    destruct (nth_error v it) as [x|] eqn:Ex; [|apply nth_error_None in Ex; lia].
    specialize (H x). apply (fun q => q : In x (skipn it v) -> _) in H; [lia|]. apply (nth_error_In _ 0). rewrite nth_error_skipn, Nat.add_0_r. exact Ex.
  - destruct (seg_upper_ok v i it S L) as (e & -> & B & C1 & C2 & _); [intros x I; apply H in I; lia|]. cbn [bind].
    destruct (IH (Datatypes.S i) e) as (vseg & -> & Ch & Cc & Ci); [lia| |].
    { intros x I. specialize (C2 x I). assert (In x (skipn it v)). { rewrite (slice_split v it e) by lia. apply in_or_app. auto. } apply H in H0. lia. }
    cbn [bind]. exists ((it, e, i) :: vseg). split; [reflexivity|]. cbn [chain map]. unfold sg_begin, sg_end, sg_idx. cbn [fst snd].
    split; [split; [reflexivity|split; [lia|exact Ch]]|]. split; [|f_equal; exact Ci].
    intros r [<-|I]; [|apply Cc; exact I]. intros x Ix. apply C1. exact Ix.
Qed.

Lemma vseg_sparse_ok v : by_seg v -> forall fuel it lo, (it <= len v)%nat -> (len v - it < fuel)%nat -> (forall x, In x (skipn it v) -> (lo <= seg x)%nat) ->
  exists vseg, vseg_sparse KO fuel log2 v it = Ok vseg /\ chain it vseg (len v) /\ (forall r, In r vseg -> seg_const v r) /\ StronglySorted lt (map sg_idx vseg) /\
    (forall r, In r vseg -> (lo <= sg_idx r < nsegs)%nat).
Proof.
  intros S. induction fuel as [|f IH]; intros it lo L F H; [lia|]. cbn [vseg_sparse]. destruct (Nat.eqb_spec it (len v)) as [->|NE].
  - exists []. cbn. repeat split; auto; try constructor; contradiction.
  - destruct (nth_error v it) as [x|] eqn:Ex; [|apply nth_error_None in Ex; lia]. pose proof Ex as Er. apply rd_some in Er. rewrite Er. cbn [bind].
    assert (Ix : In x (skipn it v)) by (apply (nth_error_In _ 0); rewrite nth_error_skipn, Nat.add_0_r; exact Ex).
    destruct (seg_upper_ok v (seg x) it S L) as (e & -> & B & C1 & C2 & C3).
    { assert (Q : skipn it v = x :: skipn (Datatypes.S it) v).
      { rewrite (slice_split v it (Datatypes.S it)) by lia. rewrite (slice_cons v it _ x) by (auto; lia). unfold slice. rewrite Nat.sub_diag. reflexivity. }
      pose proof (sorted_skipn _ v it S) as Sk. rewrite Q in Sk. rewrite Q. inversion Sk; subst. intros y [<-|Iy]; [lia|]. rewrite Forall_forall in H3. specialize (H3 y Iy). lia. }
    cbn [bind]. specialize (C3 x Ex eq_refl).
    destruct (IH e (Datatypes.S (seg x))) as (vseg & -> & Ch & Cc & Cs & Cl); [lia|lia|intros y Iy; specialize (C2 y Iy); lia|]. cbn [bind].
    exists ((it, e, seg x) :: vseg). split; [reflexivity|]. cbn [chain map]. unfold sg_begin, sg_end. cbn [fst snd].
    split; [split; [reflexivity|split; [lia|exact Ch]]|]. split; [|split].
    + intros r [<-|I]; [|apply Cc; exact I]. intros y Iy. apply C1. exact Iy.
    + constructor; [exact Cs|]. apply Forall_forall. intros i Ii. apply in_map_iff in Ii as (r & <- & Ir). cbn. apply Cl in Ir. lia.
    + intros r [<-|I]; cbn; [split; [apply H; exact Ix|apply seg_lt]|]. apply Cl in I. assert (lo <= seg x)%nat by (apply H; exact Ix). lia.
Qed.

Lemma sorted_seq n : forall i, StronglySorted lt (seq i n).
Proof. induction n as [|n IH]; intros i; cbn; constructor; auto. apply Forall_forall. intros j J. apply in_seq in J. lia. Qed.

Lemma compute_vseg_ok v : by_seg v -> exists vseg, compute_vseg KO log2 v = Ok vseg /\ vseg_ok v vseg.
Proof.
  intros S. unfold compute_vseg. destruct (_ <? _)%nat.
  - destruct (vseg_sparse_ok v S (Datatypes.S (len v)) 0 0) as (vseg & -> & A & B & D & F); [lia|lia|intros; lia|]. exists vseg. split; [reflexivity|]. constructor; auto. apply F.
  - destruct (vseg_dense_ok v S nsegs 0 0) as (vseg & -> & A & B & D); [lia|intros x _; pose proof (seg_lt x); lia|]. exists vseg. split; [reflexivity|]. constructor; auto.
    + rewrite D. apply sorted_seq.
    + intros r I. apply (in_map sg_idx) in I. rewrite D in I. apply in_seq in I. lia.
Qed.

Lemma vseg_concat v vseg : vseg_ok v vseg -> v = List.concat (map (rslice v) vseg).
Proof. intros V. rewrite <- (chain_concat v vseg 0 (vo_chain _ _ V)). reflexivity. Qed.

(** ** Sorting inside the segments *)
Lemma sort_len (f : nat -> Z) (l : list nat) : len (me_sort E f l) = len l.
Proof. apply Permutation_length, SP. Qed.

Lemma sort_slice_len vd vidx r : (sg_begin r <= sg_end r <= len vidx)%nat -> len (sort_slice E vd vidx r) = len vidx.
Proof. intros B. unfold sort_slice. rewrite !app_length, firstn_length, sort_len, slice_len, skipn_length by exact B. lia. Qed.

Lemma skipn_sort_slice vd vidx r i : (sg_begin r <= sg_end r <= len vidx)%nat -> (sg_end r <= i)%nat -> skipn i (sort_slice E vd vidx r) = skipn i vidx.
Proof.
  intros B L. unfold sort_slice. rewrite app_assoc. rewrite skipn_app.
  rewrite skipn_all2 by (rewrite app_length, firstn_length, sort_len, slice_len by exact B; lia). cbn [app].
  rewrite app_length, firstn_length, sort_len, slice_len by exact B. rewrite skipn_skipn'. f_equal. lia.
Qed.

Lemma sort_slices_ok vd vseg : forall vidx off, chain off vseg (len vidx) ->
  let w := fold_left (sort_slice E vd) vseg vidx in
  len w = len vidx /\ firstn off w = firstn off vidx /\ (forall r, In r vseg -> rslice w r = me_sort E (fun i => nth i vd 0) (rslice vidx r)).
Proof.
  induction vseg as [|r vseg IH]; intros vidx off H; cbn [fold_left chain] in *; [repeat split; auto; contradiction|].
  destruct H as (B & L & H). pose proof (chain_le _ _ _ H) as LE.
  assert (BB : (sg_begin r <= sg_end r <= len vidx)%nat) by lia.
  pose proof (sort_slice_len vd vidx r BB) as SL.
  destruct (IH (sort_slice E vd vidx r) (sg_end r)) as (I1 & I2 & I3); [rewrite SL; exact H|].
  split; [congruence|]. set (w := fold_left _ _ _) in *. split.
  - transitivity (firstn off (firstn (sg_end r) w)); [rewrite firstn_firstn; f_equal; lia|]. rewrite I2, firstn_firstn.
    replace (Nat.min off (sg_end r)) with off by lia. unfold sort_slice. rewrite B. rewrite firstn_app, firstn_firstn, firstn_length, Nat.min_id.
    replace (off - Nat.min off (len vidx))%nat with 0%nat by lia. rewrite firstn_O, app_nil_r. reflexivity.
  - intros q [<-|Iq].
    + unfold rslice, slice. rewrite firstn_skipn_comm. replace (sg_begin r + (sg_end r - sg_begin r))%nat with (sg_end r) by lia. rewrite I2.
      unfold sort_slice. set (a := firstn (sg_begin r) vidx). fold (slice vidx (sg_begin r) (sg_end r)). set (b := me_sort E _ _).
      assert (La : len a = sg_begin r) by (unfold a; rewrite firstn_length; lia).
      assert (Lb : len b = (sg_end r - sg_begin r)%nat) by (unfold b; rewrite sort_len, slice_len; lia).
      rewrite app_assoc, firstn_app. rewrite app_length, La, Lb. replace (sg_end r - (sg_begin r + (sg_end r - sg_begin r)))%nat with 0%nat by lia.
      rewrite firstn_O, app_nil_r. rewrite firstn_all2 by (rewrite app_length; lia). rewrite skipn_app. rewrite skipn_all2 by lia. rewrite La, Nat.sub_diag. reflexivity.
    + rewrite (I3 q Iq). f_equal. unfold rslice, slice. f_equal. apply skipn_sort_slice; auto. apply (chain_in q vseg _ _ H Iq).
Qed.

Variable D : term -> Z.

Lemma seg_sorted_ok (t : trunc K) ss v vseg : v <> [] -> (forall e, In e v -> tr_deg t (fst e) ss = Ok (D e)) -> vseg_ok v vseg ->
  exists v', seg_sorted E t ss v vseg = Ok (v', map D v') /\ Permutation v' v /\ vseg_ok v' vseg /\ (forall r, In r vseg -> by_degree D (rslice v' r)).
Proof.
  intros NE H V. unfold seg_sorted, degree_vector. rewrite (rmap_all _ D) by exact H. cbn [bind].
  destruct v as [|d0 v]; [contradiction|]. set (w := d0 :: v) in *. rewrite map_length.
  pose proof (vo_chain _ _ V) as Ch.
  destruct (sort_slices_ok (map D w) vseg (seq 0 (len w)) 0) as (S1 & _ & S3); [rewrite seq_length; exact Ch|].
  set (vidx := fold_left _ _ _) in *. rewrite seq_length in S1.
  assert (Ch' : chain 0 vseg (len vidx)) by (rewrite S1; exact Ch).
  assert (PV : Permutation vidx (seq 0 (len w))).
  { pose proof (chain_concat vidx vseg 0 Ch') as E1. rewrite <- (seq_length (len w) 0) in Ch. pose proof (chain_concat (seq 0 (len w)) vseg 0 Ch) as E2. cbn [skipn] in E1, E2.
    rewrite E1, E2. apply concat_perm. intros r I. rewrite (S3 r I). apply SP. }
  assert (IV : forall i, In i vidx -> (i < len w)%nat). { intros i I. apply (Permutation_in _ PV) in I. apply in_seq in I. lia. }
  rewrite (permuted_ok (map D w) (fun x => x) 0) by (intros i I; rewrite map_length; auto). cbn [bind].
  rewrite (permuted_ok w D d0) by exact IV. cbn [bind].
  set (v' := map (fun i => nth i w d0) vidx).
  assert (SL : forall r, In r vseg -> rslice v' r = map (fun i => nth i w d0) (me_sort E (fun i => nth i (map D w) 0) (rslice (seq 0 (len w)) r))).
  { intros r I. unfold v', rslice. rewrite slice_map. f_equal. apply (S3 r I). }
  assert (PS : forall r, In r vseg -> Permutation (rslice v' r) (rslice w r)).
  { intros r I. rewrite (SL r I). transitivity (map (fun i => nth i w d0) (rslice (seq 0 (len w)) r)); [apply Permutation_map, SP|].
    unfold rslice. rewrite <- slice_map, map_nth_seq0. reflexivity. }
  exists v'. split; [|split; [|split]].
  - f_equal. f_equal. unfold v'. rewrite map_map. apply map_ext_in. intros i I. rewrite (nth_indep (map D w) 0 (D d0)) by (rewrite map_length; auto). apply map_nth.
  - unfold v'. rewrite PV, map_nth_seq0. reflexivity.
  - destruct V as [V1 V2 V3 V4]. constructor; auto.
    + unfold v'. rewrite map_length. exact Ch'.
    + intros r I x Ix. apply (V2 r I). eapply Permutation_in; [apply PS; exact I|exact Ix].
  - intros r I. unfold by_degree. rewrite (SL r I). apply sorted_map. pose proof (SS nat (fun i => nth i (map D w) 0) (rslice (seq 0 (len w)) r)) as S.
    assert (IX : forall i, In i (me_sort E (fun i => nth i (map D w) 0) (rslice (seq 0 (len w)) r)) -> (i < len w)%nat).
    { intros i Ii. apply (Permutation_in _ (SP _ _ _)) in Ii. apply slice_incl in Ii. apply in_seq in Ii. lia. }
    clear - S IX. induction S as [|i l S IH F]; constructor.
    + apply IH. intros j J. apply IX. right. exact J.
    + apply Forall_forall. intros j J. rewrite Forall_forall in F. specialize (F j J). cbn beta in F.
      rewrite !(nth_indep (map D w) 0 (D d0)), !map_nth in F by (rewrite map_length; apply IX; (left; reflexivity) || (right; exact J)). exact F.
Qed.
End Seg.
