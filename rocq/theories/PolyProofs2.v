(** The term pairs multiplied by the simple and by the segmented algorithm. *)
From Coq Require Import ZArith List Bool String Arith Lia Permutation Sorted.
From Verif Require Import Base SymModel KeyOps SeriesModel PolyModel PolyProofs SeriesProofs SeriesProofs2.
Import ListNotations.
Open Scope Z_scope.
Notation len := List.length.

Section Pairs.
Context {K C Tag : Type} (E : mul_env K C Tag).
Notation term := (K * C)%type.
Hypothesis SP : forall (A : Type) (f : A -> Z) l, Permutation (me_sort E f l) l.
Hypothesis SS : forall (A : Type) (f : A -> Z) l, StronglySorted (fun a b => f a <= f b) (me_sort E f l).

(** The degree of a term and the limit. *)
Variable D : term -> Z.
Variable lim : Z.
Definition within (a b : term) : bool := D b <=? lim - D a.
Definition keep (t : option (trunc K)) (p : term * term) : bool := match t with None => true | Some _ => within (fst p) (snd p) end.
Definition by_degree (l : list term) : Prop := StronglySorted (fun a b => D a <= D b) l.

Definition over_ok (t : trunc K) (v1 v2 : list term) : Prop :=
  forall a b, In a v1 -> In b v2 -> tr_over t (D a) (D b) = Ok (lim <? D a + D b).

Lemma slice_incl {A} (l : list A) b e : incl (slice l b e) l.
Proof. intros x I. unfold slice in I. apply In_nth_error in I as [i I].
  assert (X : In x (firstn (e - b) (skipn b l))) by (eapply nth_error_In; eauto).
  assert (In x (skipn b l)) by (rewrite <- (firstn_skipn (e - b) (skipn b l)); apply in_or_app; auto).
  rewrite <- (firstn_skipn b l). apply in_or_app; auto. Qed.

Lemma upper_ok t v1 v2 a b e : over_ok t v1 v2 -> In a v1 -> (b <= e <= len v2)%nat -> by_degree (slice v2 b e) ->
  exists n, upper t (map D v2) (D a) b e = Ok (b + n)%nat /\ (b + n <= e)%nat /\ slice v2 b (b + n) = filter (within a) (slice v2 b e) /\ n = len (filter (within a) (slice v2 b e)).
Proof.
  intros OV Ia B S. destruct (sorted_prefix D (lim - D a) (slice v2 b e) S) as [P1 P2].
  set (n := len (filter (fun x => D x <=? lim - D a) (slice v2 b e))) in *. exists n.
  assert (N : (n <= e - b)%nat). { rewrite <- (slice_len v2 b e) by exact B. unfold n. clear. induction (slice v2 b e) as [|x l IH]; cbn; [lia|]. destruct (_ <=? _); cbn; lia. }
  split; [|split; [lia|split; [|reflexivity]]].
  - unfold upper. apply search_ok; [lia|]. intros j Hj.
    destruct (nth_error v2 j) as [x|] eqn:Ex; [|apply nth_error_None in Ex; lia].
    assert (Ed : nth_error (map D v2) j = Some (D x)) by (rewrite nth_error_map, Ex; reflexivity).
    apply rd_some in Ed. rewrite Ed. cbn [bind]. rewrite (OV a x Ia (nth_error_In _ _ Ex)). cbn [bind]. f_equal.
    specialize (P2 (j - b)%nat x). rewrite nth_error_slice in P2 by lia. replace (b + (j - b))%nat with j in P2 by lia. specialize (P2 Ex).
    replace (negb (lim <? D a + D x)) with (D x <=? lim - D a).
    + rewrite P2. destruct (Nat.ltb_spec (j - b) n), (Nat.ltb_spec j (b + n)); try reflexivity; lia.
    + destruct (Z.leb_spec (D x) (lim - D a)), (Z.ltb_spec lim (D a + D x)); cbn; try reflexivity; lia.
  - rewrite (slice_prefix v2 b e n) by lia. exact P1.
Qed.

Lemma filter_prod_cons (P : term * term -> bool) a v1 v2 : filter P (list_prod (a :: v1) v2) = map (pair a) (filter (fun b => P (a, b)) v2) ++ filter P (list_prod v1 v2).
Proof.
  cbn [list_prod]. rewrite filter_app. f_equal. induction v2 as [|b v2 IH]; cbn; [reflexivity|]. rewrite IH. destruct (P (a, b)); reflexivity.
Qed.

(** No pair of an exhausted row's successors is within the limit. *)
Lemma exhausted a v1 v2 : Forall (fun b => D a <= D b) v1 -> filter (within a) v2 = [] -> filter (keep (Some (Build_trunc K (fun _ _ => UB) (fun _ _ => UB)))) (list_prod v1 v2) = [].
Proof.
  intros F Z0. induction F as [|b v1 L F IH]; [reflexivity|]. rewrite filter_prod_cons, IH, app_nil_r. cbn [keep fst snd].
  assert (X : filter (fun c => within b c) v2 = []); [|rewrite X; reflexivity].
  clear IH F. induction v2 as [|c v2 IH]; [reflexivity|]. cbn [filter] in *. unfold within in *.
  destruct (Z.leb_spec (D c) (lim - D a)); [discriminate|]. destruct (Z.leb_spec (D c) (lim - D b)); [lia|]. apply IH. exact Z0.
Qed.

Lemma simple_pairs_none v2 : forall v1 i, @simple_pairs K C None v2 [] [] i v1 = Ok (list_prod v1 v2).
Proof. induction v1 as [|a v1 IH]; intros i; cbn [simple_pairs bind]; [reflexivity|]. rewrite IH. cbn [bind]. rewrite firstn_all. reflexivity. Qed.

Lemma simple_pairs_some t w1 v2 : over_ok t w1 v2 -> by_degree w1 -> by_degree v2 ->
  forall v1 i, skipn i w1 = v1 -> simple_pairs (Some t) v2 (map D w1) (map D v2) i v1 = Ok (filter (keep (Some t)) (list_prod v1 v2)).
Proof.
  intros OV S1 S2. induction v1 as [|a v1 IH]; intros i Ei; [reflexivity|]. cbn [simple_pairs].
  assert (Ea : nth_error w1 i = Some a). { rewrite <- (Nat.add_0_r i), <- nth_error_skipn, Ei. reflexivity. }
  assert (Ed : nth_error (map D w1) i = Some (D a)) by (rewrite nth_error_map, Ea; reflexivity). apply rd_some in Ed. rewrite Ed. cbn [bind].
  rewrite map_length. destruct (upper_ok t w1 v2 a 0 (len v2) OV) as (n & -> & Ln & En & Nn); [eapply nth_error_In; eauto|lia|rewrite slice_whole; exact S2|].
  cbn [bind]. rewrite slice_whole in En, Nn. cbn [Nat.add] in *. unfold slice in En. rewrite Nat.sub_0_r in En. cbn [skipn] in En.
  assert (Ei' : skipn (S i) w1 = v1). { change (S i) with (1 + i)%nat. rewrite (Nat.add_comm 1 i), <- skipn_skipn', Ei. reflexivity. }
  assert (Sa : by_degree (a :: v1)).
  { rewrite <- Ei. clear - S1. unfold by_degree in *. revert i. induction S1 as [|x l S IH F]; intros [|i]; cbn; try constructor; auto. }
  destruct (Nat.eqb_spec n 0) as [Z0|NZ].
  - f_equal. symmetry. rewrite filter_prod_cons. unfold keep at 1. cbn [fst snd].
    assert (FN : filter (fun b => within a b) v2 = []) by (apply length_zero_iff_nil; change (len (filter (within a) v2) = 0%nat); congruence). rewrite FN. cbn [map app].
    inversion Sa; subst. exact (exhausted a _ v2 H2 FN).
  - rewrite (IH (S i) Ei'). cbn [bind]. f_equal. rewrite filter_prod_cons. f_equal. f_equal. exact En.
Qed.

(** ** The degree-sorted vectors *)
Lemma permuted_ok {A} (l : list A) (f : A -> Z) (d : A) (vidx : list nat) : (forall i, In i vidx -> (i < len l)%nat) ->
  permuted l vidx = Ok (map (fun i => nth i l d) vidx).
Proof.
  intros H. apply rmap_all. intros i I. apply rd_some. apply nth_error_nth'. apply H. exact I.
Qed.

Lemma map_nth_seq {A} (l : list A) d : forall off, map (fun i => nth (i - off) l d) (seq off (len l)) = l.
Proof.
  induction l as [|x l IH]; intros off; cbn [seq map List.length]; [reflexivity|]. rewrite Nat.sub_diag. cbn [nth]. f_equal.
  rewrite <- (IH (S off)) at 2. apply map_ext_in. intros i I. apply in_seq in I. replace (i - off)%nat with (S (i - S off)) by lia. reflexivity.
Qed.
Lemma map_nth_seq0 {A} (l : list A) d : map (fun i => nth i l d) (seq 0 (len l)) = l.
Proof. etransitivity; [|apply (map_nth_seq l d 0)]. apply map_ext. intros i. rewrite Nat.sub_0_r. reflexivity. Qed.

Lemma degree_sorted_ok (t : trunc K) ss v : v <> [] -> (forall e, In e v -> tr_deg t (fst e) ss = Ok (D e)) ->
  exists v', degree_sorted E t ss v = Ok (v', map D v') /\ Permutation v' v /\ by_degree v'.
Proof.
  intros NE H. unfold degree_sorted, degree_vector. rewrite (rmap_all _ D) by exact H. cbn [bind].
  destruct v as [|d0 v]; [contradiction|]. set (w := d0 :: v) in *. set (vidx := me_sort E _ _).
  assert (PV : Permutation vidx (seq 0 (len (map D w)))) by apply SP.
  assert (IV : forall i, In i vidx -> (i < len w)%nat). { intros i I. apply (Permutation_in _ PV) in I. apply in_seq in I. rewrite map_length in I. lia. }
  rewrite (permuted_ok (map D w) (fun x => x) 0) by (intros i I; rewrite map_length; auto). cbn [bind].
  rewrite (permuted_ok w D d0) by exact IV. cbn [bind].
  exists (map (fun i => nth i w d0) vidx). split; [|split].
  - f_equal. f_equal. rewrite map_map. apply map_ext_in. intros i I. rewrite (nth_indep (map D w) 0 (D d0)) by (rewrite map_length; auto). apply map_nth.
  - transitivity (map (fun i => nth i w d0) (seq 0 (len (map D w)))); [apply Permutation_map; exact PV|]. rewrite map_length, map_nth_seq0. reflexivity.
  - unfold by_degree. apply sorted_map. generalize (SS nat (fun i => nth i (map D w) 0) (seq 0 (len (map D w)))). fold vidx. intros S.
    clear - S IV. induction S as [|i l S IH F]; constructor.
    + apply IH. intros j J. apply IV. right. exact J.
    + apply Forall_forall. intros j J. rewrite Forall_forall in F. specialize (F j J). cbn beta in F.
      rewrite !(nth_indep (map D w) 0 (D d0)), !map_nth in F by (rewrite map_length; apply IV; (left; reflexivity) || (right; exact J)). exact F.
Qed.
End Pairs.
