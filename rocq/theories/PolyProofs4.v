(** The segmented multiplication multiplies every pair of terms exactly once, in the segment of its product. *)
From Coq Require Import ZArith List Bool String Arith Lia Permutation Sorted.
From Verif Require Import Base SymModel KeyOps SeriesModel PolyModel PolyProofs SeriesProofs SeriesProofs2 SeriesProofs5 SeriesEval PolyProofs2 PolyProofs3.
Import ListNotations.
Open Scope Z_scope.
Notation len := List.length.

Lemma strict_find (f : vsegment -> nat) m (l : list vsegment) : StronglySorted lt (map f l) ->
  let n := len (filter (fun x => f x <? m)%nat l) in
  (forall j x, nth_error l j = Some x -> (f x <? m)%nat = (j <? n)%nat) /\
  filter (fun x => Nat.eqb (f x) m) l = match nth_error l n with Some x => if Nat.eqb (f x) m then [x] else [] | None => [] end.
Proof.
  induction l as [|a l IH]; cbn [map filter]; intros S; [split; [intros [|j] x; discriminate|reflexivity]|].
  apply StronglySorted_inv in S as [S F]. specialize (IH S). destruct IH as [I1 I2].
  assert (Fl : forall x, In x l -> (f a < f x)%nat) by (intros x Ix; rewrite Forall_forall in F; apply F, in_map, Ix).
  destruct (Nat.ltb_spec (f a) m) as [L|L]; cbn [List.length].
  - split.
    + intros [|j] x Ex; cbn in Ex; [inversion Ex; subst x; apply Nat.ltb_lt; exact L|]. rewrite (I1 j x Ex). reflexivity.
    + cbn [nth_error]. destruct (Nat.eqb_spec (f a) m); [lia|]. exact I2.
  - assert (Z0 : filter (fun x => f x <? m)%nat l = []).
    { clear - Fl L. induction l as [|x l IH]; [reflexivity|]. cbn [filter]. destruct (Nat.ltb_spec (f x) m).
      - specialize (Fl x (or_introl eq_refl)). lia.
      - apply IH. intros y Iy. apply Fl. right. exact Iy. }
    rewrite Z0. cbn [List.length nth_error]. split.
    + intros j x Ex. destruct (Nat.ltb_spec (f x) m) as [Q|Q]; [|destruct (Nat.ltb_spec j 0); [lia|reflexivity]].
      exfalso. destruct j as [|j]; cbn in Ex; [inversion Ex; subst x; lia|]. specialize (Fl x (nth_error_In _ _ Ex)). lia.
    + assert (Z1 : filter (fun x => Nat.eqb (f x) m) l = []).
      { clear - Fl L. induction l as [|x l IH]; [reflexivity|]. cbn [filter]. destruct (Nat.eqb_spec (f x) m).
        - specialize (Fl x (or_introl eq_refl)). lia.
        - apply IH. intros y Iy. apply Fl. right. exact Iy. }
      rewrite Z1. destruct (Nat.eqb (f a) m); reflexivity.
Qed.

(** The pairs of segments that contribute to a segment. *)
Definition contributors (n : nat) (vseg1 vseg2 : list vsegment) (s : nat) : list (vsegment * vsegment) :=
  List.concat (map (fun r1 => map (pair r1) (filter (fun r2 => Nat.eqb ((sg_idx r1 + sg_idx r2) mod n) s) vseg2)) vseg1).

Section Ranges.
Variables (n s : nat).
Hypothesis Hs : (s < n)%nat.
Variable vseg2 : list vsegment.
Hypothesis S2 : StronglySorted lt (map sg_idx vseg2).
Hypothesis L2 : forall r, In r vseg2 -> (sg_idx r < n)%nat.

Lemma mod_target b1 b2 : (b1 < n)%nat -> (b2 < n)%nat -> ((b1 + b2) mod n = s <-> b2 + b1 = if s <? b1 then s + n else s)%nat.
Proof.
  intros B1 B2. assert (M : ((b1 + b2) mod n = if b1 + b2 <? n then b1 + b2 else b1 + b2 - n)%nat).
  { destruct (Nat.ltb_spec (b1 + b2) n); [apply Nat.mod_small; auto|]. symmetry. apply (Nat.mod_unique _ _ 1); lia. }
  rewrite M. destruct (Nat.ltb_spec (b1 + b2) n), (Nat.ltb_spec s b1); lia.
Qed.

Lemma filter_target r1 : (sg_idx r1 < n)%nat ->
  filter (fun r2 => Nat.eqb ((sg_idx r1 + sg_idx r2) mod n) s) vseg2 =
  filter (fun r2 => Nat.eqb (sg_idx r2 + sg_idx r1) (if (s <? sg_idx r1)%nat then (s + n)%nat else s)) vseg2.
Proof.
  intros B. apply filter_ext_in. intros r2 I. pose proof (mod_target (sg_idx r1) (sg_idx r2) B (L2 r2 I)) as M.
  destruct (Nat.eqb_spec ((sg_idx r1 + sg_idx r2) mod n) s), (Nat.eqb_spec (sg_idx r2 + sg_idx r1) (if (s <? sg_idx r1)%nat then s + n else s)%nat); try reflexivity; tauto.
Qed.

Lemma sparse_ok : forall vseg1 es (wrap : bool), StronglySorted lt (map sg_idx vseg1) -> (forall r, In r vseg1 -> (sg_idx r < n)%nat) -> (es <= len vseg2)%nat ->
  (wrap = true -> forall r1, In r1 vseg1 -> (s < sg_idx r1)%nat) ->
  (forall r1 j r2, In r1 vseg1 -> (s <? sg_idx r1)%nat = wrap -> (es <= j)%nat -> nth_error vseg2 j = Some r2 -> ((if wrap then s + n else s) < sg_idx r2 + sg_idx r1)%nat) ->
  sparse_ranges vseg2 n s es wrap vseg1 = Ok (contributors n vseg1 vseg2 s).
Proof.
  induction vseg1 as [|r1 vseg1 IH]; intros es wrap S1 L1 B W J; [reflexivity|]. cbn [sparse_ranges].
  assert (B1 : (sg_idx r1 < n)%nat) by (apply L1; left; reflexivity).
  cbn [map] in S1. apply StronglySorted_inv in S1 as [S1 F1]. assert (G1 : forall r, In r vseg1 -> (sg_idx r1 < sg_idx r)%nat) by (intros r I; rewrite Forall_forall in F1; apply F1, in_map, I).
  set (st := if negb wrap && (s <? sg_idx r1)%nat then (len vseg2, true) else (es, wrap)).
  assert (ST : exists es', st = (es', (s <? sg_idx r1)%nat) /\ (es' <= len vseg2)%nat /\
     (forall q j r2, q = r1 \/ In q vseg1 -> (s <? sg_idx q)%nat = (s <? sg_idx r1)%nat -> (es' <= j)%nat -> nth_error vseg2 j = Some r2 -> ((if (s <? sg_idx r1)%nat then s + n else s) < sg_idx r2 + sg_idx q)%nat)).
  { unfold st. destruct wrap; cbn [negb andb].
    - specialize (W eq_refl r1 (or_introl eq_refl)). apply Nat.ltb_lt in W. exists es. rewrite W. split; [reflexivity|]. split; [exact B|].
      intros q j r2 Iq Eq Lj Ej. apply (J q j r2); auto. destruct Iq as [->|Iq]; [left; reflexivity|right; exact Iq].
    - destruct (s <? sg_idx r1)%nat eqn:Q.
      + exists (len vseg2). split; [reflexivity|]. split; [lia|]. intros q j r2 _ _ Lj Ej. assert (j < len vseg2)%nat by (apply nth_error_Some; congruence). lia.
      + exists es. split; [reflexivity|]. split; [exact B|]. intros q j r2 Iq Eq Lj Ej. apply (J q j r2); auto. destruct Iq as [->|Iq]; [left; reflexivity|right; exact Iq]. }
  clearbody st. destruct ST as (es' & -> & Bes & JJ). clear J W B es wrap. set (wr := (s <? sg_idx r1)%nat) in *. set (tgt := if wr then (s + n)%nat else s) in *.
  assert (SM : StronglySorted lt (map (fun r => sg_idx r + sg_idx r1)%nat vseg2)).
  { clear - S2. induction vseg2 as [|r l IH]; cbn in *; constructor; inversion S2; subst; [apply IH; auto|]. apply Forall_forall. intros x I. apply in_map_iff in I as (q & <- & I).
    rewrite Forall_forall in H2. specialize (H2 (sg_idx q) (in_map _ _ _ I)). lia. }
  destruct (strict_find (fun r => sg_idx r + sg_idx r1)%nat tgt vseg2 SM) as [P1 P2]. set (p := len (filter _ vseg2)) in *.
  assert (Lp : (p <= es')%nat).
  { destruct (Nat.le_gt_cases p es') as [|G]; auto. exfalso. destruct (nth_error vseg2 es') as [r|] eqn:Er.
    - pose proof (P1 _ _ Er) as Q. assert ((es' <? p)%nat = true) as X by (apply Nat.ltb_lt; exact G). rewrite X in Q. apply Nat.ltb_lt in Q.
      specialize (JJ r1 es' r (or_introl eq_refl) eq_refl (Nat.le_refl _) Er). fold tgt in JJ. lia.
    - apply nth_error_None in Er. assert (p <= len vseg2)%nat by apply filter_len. lia. }
  rewrite (search_ok _ p 0 es') ; [|lia|].
  2:{ intros j Hj. destruct (nth_error vseg2 j) as [r|] eqn:Er; [|apply nth_error_None in Er; lia]. pose proof Er as Er'. apply rd_some in Er'. rewrite Er'. cbn [bind]. f_equal. apply (P1 j r Er). }
  cbn [bind].
  assert (CC : contributors n (r1 :: vseg1) vseg2 s = map (pair r1) (filter (fun r2 => Nat.eqb (sg_idx r2 + sg_idx r1) tgt) vseg2) ++ contributors n vseg1 vseg2 s).
  { unfold contributors. cbn [map List.concat]. f_equal. f_equal. apply filter_target. exact B1. }
  rewrite CC, P2. destruct (Nat.eqb_spec p es') as [EQ|NEQ].
  - cbn [bind]. assert (Z0 : match nth_error vseg2 p with Some x => if Nat.eqb (sg_idx x + sg_idx r1) tgt then [x] else [] | None => [] end = []).
    { destruct (nth_error vseg2 p) as [r|] eqn:Er; [|reflexivity]. assert (tgt < sg_idx r + sg_idx r1)%nat by (apply (JJ r1 p r); auto; lia). destruct (Nat.eqb_spec (sg_idx r + sg_idx r1) tgt); [lia|reflexivity]. }
    rewrite Z0. cbn [map app]. apply IH; auto.
    + intros r I. apply L1. right. exact I.
    + intros W r I. apply Nat.ltb_lt in W. specialize (G1 r I). lia.
    + intros q j r2 Iq. apply JJ. right. exact Iq.
  - destruct (nth_error vseg2 p) as [r|] eqn:Er; [|apply nth_error_None in Er; lia]. pose proof Er as Er'. apply rd_some in Er'. rewrite Er'. cbn [bind].
    destruct (Nat.eqb_spec (sg_idx r + sg_idx r1) tgt) as [EQ|NE].
    + rewrite IH; auto.
      * intros q I. apply L1. right. exact I.
      * lia.
      * intros W q I. apply Nat.ltb_lt in W. specialize (G1 q I). lia.
      * intros q j r2 Iq Eq Lj Ej. fold tgt. specialize (G1 q Iq).
        destruct (Nat.eq_dec j p) as [->|NJ]; [rewrite Er in Ej; inversion Ej; subst r2; lia|].
        pose proof (P1 _ _ Ej) as Q. assert ((j <? p)%nat = false) as X by (apply Nat.ltb_ge; lia). rewrite X in Q. apply Nat.ltb_ge in Q. lia.
    + cbn [map app]. apply IH; auto.
      * intros q I. apply L1. right. exact I.
      * intros W q I. apply Nat.ltb_lt in W. specialize (G1 q I). lia.
      * intros q j r2 Iq. apply JJ. right. exact Iq.
Qed.

Lemma dense_ok vseg1 : map sg_idx vseg1 = seq 0 n -> map sg_idx vseg2 = seq 0 n -> dense_ranges vseg1 vseg2 n s = Ok (contributors n vseg1 vseg2 s).
Proof.
  intros M1 M2. unfold dense_ranges.
  assert (LL1 : len vseg1 = n) by (rewrite <- (map_length sg_idx), M1, seq_length; reflexivity).
  assert (LL2 : len vseg2 = n) by (rewrite <- (map_length sg_idx), M2, seq_length; reflexivity).
  set (d := (0%nat, 0%nat, 0%nat) : vsegment).
  set (j := fun i => if (i <=? s)%nat then (s - i)%nat else (n - i + s)%nat).
  assert (I1 : forall i, (i < n)%nat -> sg_idx (nth i vseg1 d) = i). { intros i Hi. rewrite <- (map_nth sg_idx), M1, seq_nth; auto. }
  assert (I2 : forall i, (i < n)%nat -> sg_idx (nth i vseg2 d) = i). { intros i Hi. rewrite <- (map_nth sg_idx), M2, seq_nth; auto. }
  assert (Jn : forall i, (i < n)%nat -> (j i < n)%nat). { intros i Hi. unfold j. destruct (Nat.leb_spec i s); lia. }
  rewrite (rmap_all _ (fun i => (nth i vseg1 d, nth (j i) vseg2 d))).
  - f_equal. unfold contributors. set (F := fun r1 => map (pair r1) _).
    transitivity (List.concat (map (fun i => F (nth i vseg1 d)) (seq 0 n))); [|rewrite <- (map_map (fun i => nth i vseg1 d) F), <- LL1, map_nth_seq0; reflexivity].
    assert (G : forall l, (forall i, In i l -> (i < n)%nat) -> map (fun i => (nth i vseg1 d, nth (j i) vseg2 d)) l = List.concat (map (fun i => F (nth i vseg1 d)) l)).
    { induction l as [|i l IH]; intros H; cbn [map List.concat]; [reflexivity|]. rewrite IH by (intros; apply H; right; assumption).
      assert (Hi : (i < n)%nat) by (apply H; left; reflexivity).
      assert (X : F (nth i vseg1 d) = [(nth i vseg1 d, nth (j i) vseg2 d)]); [|rewrite X; reflexivity].
      unfold F. rewrite filter_target, (I1 i Hi) by (rewrite I1; auto).
      set (tgt := if (s <? i)%nat then (s + n)%nat else s).
      assert (SM : StronglySorted lt (map (fun r => sg_idx r + i)%nat vseg2)).
      { clear - S2. induction vseg2 as [|r l IH]; cbn in *; constructor; inversion S2; subst; [apply IH; auto|]. apply Forall_forall. intros x I. apply in_map_iff in I as (q & <- & I).
        rewrite Forall_forall in H2. specialize (H2 (sg_idx q) (in_map _ _ _ I)). lia. }
      destruct (strict_find (fun r => sg_idx r + i)%nat tgt vseg2 SM) as [P1 P2]. rewrite P2. set (p := len (filter _ vseg2)) in *.
      assert (Ep : p = j i).
      { assert (Q : forall q, (q < n)%nat -> (q + i <? tgt)%nat = (q <? p)%nat).
        { intros q Hq. rewrite <- (P1 q (nth q vseg2 d)); [rewrite (I2 q Hq); reflexivity|]. apply nth_error_nth'. lia. }
        assert (Lp : (p <= n)%nat). { rewrite <- LL2. apply filter_len. }
        assert (Hj := Jn i Hi). assert (j i + i = tgt)%nat as T. { unfold j, tgt in *. destruct (Nat.leb_spec i s), (Nat.ltb_spec s i); lia. }
        pose proof (Q (j i) Hj) as Q1. destruct (Nat.ltb_spec (j i + i) tgt); [lia|]. symmetry in Q1. apply Nat.ltb_ge in Q1.
        destruct (Nat.eq_dec p (j i)) as [|NE]; auto. exfalso. pose proof (Q p ltac:(lia)) as Q2. rewrite Nat.ltb_irrefl in Q2. apply Nat.ltb_ge in Q2. lia. }
      rewrite Ep, (nth_error_nth' vseg2 d) by (rewrite LL2; auto). rewrite (I2 (j i)) by auto.
      assert (j i + i = tgt)%nat as T. { unfold j, tgt. destruct (Nat.leb_spec i s), (Nat.ltb_spec s i); lia. }
      rewrite T, Nat.eqb_refl. reflexivity. }
    apply G. intros i Ii. apply in_seq in Ii. lia.
  - intros i Ii. apply in_seq in Ii. rewrite (proj2 (rd_some vseg1 i (nth i vseg1 d))) by (apply nth_error_nth'; lia). cbn [bind].
    fold (j i). rewrite (proj2 (rd_some vseg2 (j i) (nth (j i) vseg2 d))) by (apply nth_error_nth'; rewrite LL2; apply Jn; lia). reflexivity.
Qed.
End Ranges.

Section Tasks.
Context {K C Tag : Type} (KO : key_ops K) (E : mul_env K C Tag).
Notation term := (K * C)%type.
Variable log2 : nat.
Notation seg := (seg_of (C := C) KO log2).
Notation nsegs := (2 ^ log2)%nat.
Variable D : term -> Z.
Variable lim : Z.
Variable t : option (trunc K).
Notation keep := (keep D lim t).

Definition good_vd (v : list term) (vd : list Z) (vseg : list vsegment) : Prop :=
  match t with None => True | Some _ => vd = map D v /\ forall r, In r vseg -> by_degree D (rslice v r) end.
Definition over_ok' (v1 v2 : list term) : Prop := match t with None => True | Some t => over_ok D lim t v1 v2 end.

Lemma range_pairs_ok v1 v2 vd1 vd2 vseg1 vseg2 r1 r2 : vseg_ok KO log2 v1 vseg1 -> vseg_ok KO log2 v2 vseg2 -> good_vd v1 vd1 vseg1 -> good_vd v2 vd2 vseg2 -> over_ok' v1 v2 ->
  In r1 vseg1 -> In r2 vseg2 ->
  range_pairs t v1 v2 vd1 vd2 r2 (seq (sg_begin r1) (sg_end r1 - sg_begin r1)) = Ok (filter keep (list_prod (rslice v1 r1) (rslice v2 r2))).
Proof.
  intros V1 V2 G1 G2 OV I1 I2. destruct (chain_in r1 vseg1 0 _ (vo_chain _ _ _ _ V1) I1) as [B1 B1']. destruct (chain_in r2 vseg2 0 _ (vo_chain _ _ _ _ V2) I2) as [B2 B2'].
  assert (Gen : forall m b, (b + m = sg_end r1)%nat -> (sg_begin r1 <= b)%nat ->
    range_pairs t v1 v2 vd1 vd2 r2 (seq b m) = Ok (filter keep (list_prod (slice v1 b (sg_end r1)) (rslice v2 r2)))).
  { induction m as [|m IH]; intros b Hb Lb; cbn [seq range_pairs].
    - assert (slice v1 b (sg_end r1) = []) as ->; [|reflexivity]. unfold slice. replace (sg_end r1 - b)%nat with 0%nat by lia. reflexivity.
    - destruct (nth_error v1 b) as [a|] eqn:Ea; [|apply nth_error_None in Ea; lia]. pose proof Ea as Ea'. apply rd_some in Ea'. rewrite Ea'. cbn [bind].
      rewrite (slice_cons v1 b (sg_end r1) a) by (auto; lia). rewrite filter_prod_cons. specialize (IH (S b) ltac:(lia) ltac:(lia)).
      unfold good_vd, over_ok', PolyProofs2.keep in *. destruct t as [tt|].
      + destruct G1 as [-> G1], G2 as [-> G2].
        assert (Ed : nth_error (map D v1) b = Some (D a)) by (rewrite nth_error_map, Ea; reflexivity). apply rd_some in Ed. rewrite Ed. cbn [bind].
        destruct (upper_ok D lim tt v1 v2 a (sg_begin r2) (sg_end r2) OV (nth_error_In _ _ Ea)) as (n & -> & Ln & En & Nn); [lia|apply (G2 r2 I2)|]. cbn [bind].
        assert (Sb : by_degree D (slice v1 b (sg_end r1))).
        { specialize (G1 r1 I1). unfold rslice in G1. pose proof (sorted_skipn _ _ (b - sg_begin r1) G1) as X. unfold slice in X. rewrite skipn_firstn_comm in X.
          rewrite skipn_skipn' in X. replace (sg_begin r1 + (b - sg_begin r1))%nat with b in X by lia. unfold by_degree, slice. replace (sg_end r1 - b)%nat with (sg_end r1 - sg_begin r1 - (b - sg_begin r1))%nat by lia. exact X. }
        destruct (Nat.eqb_spec (sg_begin r2 + n) (sg_begin r2)) as [Z0|NZ].
        * f_equal. symmetry. cbn [fst snd]. assert (FN : filter (fun b => within D lim a b) (rslice v2 r2) = []) by (apply length_zero_iff_nil; change (len (filter (within D lim a) (slice v2 (sg_begin r2) (sg_end r2))) = 0%nat); lia).
          rewrite FN. cbn [map app]. rewrite (slice_cons v1 b (sg_end r1) a) in Sb by (auto; lia). inversion Sb; subst. exact (exhausted D lim a _ _ H2 FN).
        * rewrite IH. cbn [bind]. f_equal. f_equal. f_equal. exact En.
      + cbn [bind]. rewrite IH. cbn [bind]. f_equal. f_equal. f_equal. fold (rslice v2 r2). clear. induction (rslice v2 r2) as [|x l IH]; cbn; [reflexivity|]. rewrite <- IH. reflexivity. }
  rewrite (Gen _ (sg_begin r1)) by lia. reflexivity.
Qed.

Definition task (v1 v2 : list term) (vseg1 vseg2 : list vsegment) (s : nat) : list (term * term) :=
  List.concat (map (fun r => filter keep (list_prod (rslice v1 (fst r)) (rslice v2 (snd r)))) (contributors nsegs vseg1 vseg2 s)).

Lemma in_contributors vseg1 vseg2 s r : In r (contributors nsegs vseg1 vseg2 s) <-> In (fst r) vseg1 /\ In (snd r) vseg2 /\ ((sg_idx (fst r) + sg_idx (snd r)) mod nsegs)%nat = s.
Proof.
  unfold contributors. rewrite <- flat_map_concat_map, in_flat_map. split.
  - intros (r1 & I1 & I). apply in_map_iff in I as (r2 & <- & I2). apply filter_In in I2 as [I2 Q]. apply Nat.eqb_eq in Q. auto.
  - intros (I1 & I2 & Q). exists (fst r). split; auto. apply in_map_iff. exists (snd r). split; [destruct r; reflexivity|]. apply filter_In. split; auto. apply Nat.eqb_eq. exact Q.
Qed.

Lemma task_pairs_ok v1 v2 vd1 vd2 vseg1 vseg2 s : vseg_ok KO log2 v1 vseg1 -> vseg_ok KO log2 v2 vseg2 -> good_vd v1 vd1 vseg1 -> good_vd v2 vd2 vseg2 -> over_ok' v1 v2 ->
  (s < nsegs)%nat -> task_pairs t v1 v2 vd1 vd2 vseg1 vseg2 nsegs s = Ok (task v1 v2 vseg1 vseg2 s).
Proof.
  intros V1 V2 G1 G2 OV Hs. unfold task_pairs.
  assert (R : (if Nat.eqb (len vseg1) nsegs && Nat.eqb (len vseg2) nsegs then dense_ranges vseg1 vseg2 nsegs s else sparse_ranges vseg2 nsegs s (len vseg2) false vseg1) = Ok (contributors nsegs vseg1 vseg2 s)).
  { destruct V1 as [_ _ SS1 LL1], V2 as [_ _ SS2 LL2]. destruct (Nat.eqb_spec (len vseg1) nsegs) as [E1|]; [destruct (Nat.eqb_spec (len vseg2) nsegs) as [E2|]|]; cbn [andb].
    1: apply dense_ok; auto; apply sorted_full; rewrite ?map_length; auto; intros i I; apply in_map_iff in I as (r & <- & I); split; try lia; cbn [Nat.add]; auto.
    all: apply sparse_ok; auto; try discriminate; intros r1 j r2 _ _ Lj Ej; assert (j < len vseg2)%nat by (apply nth_error_Some; congruence); lia. }
  rewrite R. cbn [bind]. rewrite (rmap_all _ (fun r => filter keep (list_prod (rslice v1 (fst r)) (rslice v2 (snd r))))); [reflexivity|].
  intros r I. apply in_contributors in I as (I1 & I2 & _). eapply range_pairs_ok; eauto.
Qed.

Lemma task_segment v1 v2 vseg1 vseg2 s p : vseg_ok KO log2 v1 vseg1 -> vseg_ok KO log2 v2 vseg2 -> In p (task v1 v2 vseg1 vseg2 s) ->
  ((seg (fst p) + seg (snd p)) mod nsegs)%nat = s /\ In (fst p) v1 /\ In (snd p) v2.
Proof.
  intros V1 V2 I. unfold task in I. apply in_concat in I as (l & Il & I). apply in_map_iff in Il as (r & <- & Ir). apply in_contributors in Ir as (I1 & I2 & Q).
  apply filter_In in I as [I _]. destruct p as [a b]. apply in_prod_iff in I as [Ia Ib]. cbn [fst snd].
  rewrite (vo_const _ _ _ _ V1 _ I1 a Ia), (vo_const _ _ _ _ V2 _ I2 b Ib). split; [exact Q|]. split; eapply slice_incl; eauto.
Qed.

(** Every pair of terms within the limit is multiplied in exactly one task. *)
Lemma tasks_exact v1 v2 vseg1 vseg2 : vseg_ok KO log2 v1 vseg1 -> vseg_ok KO log2 v2 vseg2 ->
  Permutation (List.concat (map (task v1 v2 vseg1 vseg2) (seq 0 nsegs))) (filter keep (list_prod v1 v2)).
Proof.
  intros V1 V2. rewrite (vseg_concat KO log2 v1 vseg1 V1) at 2. rewrite (vseg_concat KO log2 v2 vseg2 V2) at 2.
  set (F := fun r1 r2 => filter keep (list_prod (rslice v1 r1) (rslice v2 r2))).
  transitivity (List.concat (map (fun r1 => List.concat (map (F r1) vseg2)) vseg1)).
  - transitivity (List.concat (map (fun s => List.concat (map (fun r1 => List.concat (map (F r1) (filter (fun r2 => Nat.eqb ((sg_idx r1 + sg_idx r2) mod nsegs) s) vseg2))) vseg1)) (seq 0 nsegs))).
    + apply concat_perm. intros s _. unfold task, contributors. rewrite concat_concat_map.
      apply concat_perm. intros r1 _. rewrite map_map. reflexivity.
    + rewrite concat_swap. apply concat_perm. intros r1 _. rewrite <- concat_concat_map. apply concat_perm_l.
      apply (distribute (fun r2 => ((sg_idx r1 + sg_idx r2) mod nsegs)%nat)). intros r2 _. apply Nat.mod_upper_bound. pose proof (pow2_pos log2). lia.
  - rewrite list_prod_concat_l, map_map, filter_concat, map_map. apply concat_perm. intros r1 _.
    transitivity (filter keep (List.concat (map (list_prod (rslice v1 r1)) (map (rslice v2) vseg2)))); [|apply filter_perm; symmetry; apply list_prod_concat_r].
    rewrite filter_concat, !map_map. reflexivity.
Qed.
End Tasks.
