(** Lists, binary search, slices and segments: the combinatorics of the multiplication algorithms. *)
From Coq Require Import ZArith List Bool String Arith Lia Permutation Sorted.
From Verif Require Import Base SymModel KeyOps SeriesModel PolyModel.
Import ListNotations.
Open Scope Z_scope.
Notation len := List.length.

(** ** Binary search *)
Lemma bsearch_ok right p : forall fuel first n, (n < fuel)%nat -> (first <= p <= first + n)%nat ->
  (forall j, (first <= j < first + n)%nat -> right j = Ok (j <? p)%nat) -> bsearch right fuel first n = Ok p.
Proof.
  induction fuel as [|f IH]; intros first n F B R; [lia|]. cbn [bsearch]. destruct (Nat.eqb_spec n 0) as [->|NZ].
  - f_equal. lia.
  - assert (HH : (n / 2 < n)%nat) by (apply Nat.div_lt; lia). rewrite R by lia. cbn [bind].
    destruct (Nat.ltb_spec (first + n / 2) p).
    + apply IH; [lia|lia|]. intros j Hj. apply R. lia.
    + apply IH; [lia|lia|]. intros j Hj. apply R. lia.
Qed.

Lemma search_ok right p b e : (b <= p <= e)%nat -> (forall j, (b <= j < e)%nat -> right j = Ok (j <? p)%nat) -> search right b e = Ok p.
Proof. intros B R. unfold search. apply bsearch_ok; [lia|lia|]. intros j Hj. apply R. lia. Qed.

(** ** Slices *)
Lemma slice_len {A} (l : list A) b e : (b <= e <= len l)%nat -> len (slice l b e) = (e - b)%nat.
Proof. intros H. unfold slice. rewrite firstn_length, skipn_length. lia. Qed.

Lemma nth_error_skipn {A} (l : list A) : forall n i, nth_error (skipn n l) i = nth_error l (n + i).
Proof. induction l as [|x l IH]; intros [|n] i; cbn; auto. destruct i; reflexivity. Qed.

Lemma nth_error_firstn {A} (l : list A) : forall n i, (i < n)%nat -> nth_error (firstn n l) i = nth_error l i.
Proof. induction l as [|x l IH]; intros [|n] [|i] H; cbn; auto; try lia. apply IH. lia. Qed.

Lemma nth_error_slice {A} (l : list A) b e i : (i < e - b)%nat -> nth_error (slice l b e) i = nth_error l (b + i).
Proof. intros H. unfold slice. rewrite nth_error_firstn by exact H. apply nth_error_skipn. Qed.

Lemma skipn_skipn' {A} (l : list A) : forall b n, skipn n (skipn b l) = skipn (b + n) l.
Proof. induction l as [|x l IH]; intros [|b] n; cbn [skipn Nat.add]; auto; apply skipn_nil. Qed.

Lemma firstn_skipn_app {A} (l : list A) b n : skipn b l = firstn n (skipn b l) ++ skipn (b + n) l.
Proof. rewrite <- skipn_skipn'. symmetry. apply firstn_skipn. Qed.

Lemma slice_map {A B} (f : A -> B) l b e : slice (map f l) b e = map f (slice l b e).
Proof. unfold slice. rewrite skipn_map, firstn_map. reflexivity. Qed.

Lemma slice_whole {A} (l : list A) : slice l 0 (len l) = l.
Proof. unfold slice. cbn [skipn]. rewrite Nat.sub_0_r. apply firstn_all. Qed.

Lemma slice_split {A} (l : list A) b e : (b <= e)%nat -> skipn b l = slice l b e ++ skipn e l.
Proof. intros H. unfold slice. pose proof (firstn_skipn_app l b (e - b)) as E. replace (b + (e - b))%nat with e in E by lia. exact E. Qed.

Lemma slice_prefix {A} (l : list A) b e n : (b + n <= e)%nat -> slice l b (b + n) = firstn n (slice l b e).
Proof. intros H. unfold slice. rewrite firstn_firstn. f_equal. lia. Qed.

Lemma slice_cons {A} (l : list A) b e x : (b < e)%nat -> nth_error l b = Some x -> slice l b e = x :: slice l (S b) e.
Proof.
  intros H X. unfold slice. replace (e - b)%nat with (S (e - S b)) by lia.
  assert (skipn b l = x :: skipn (S b) l) as ->; [|reflexivity].
  clear H. revert b X. induction l as [|y l IH]; intros [|b] X; cbn in *; try discriminate; [congruence|]. apply IH. exact X.
Qed.

(** ** Sorted lists and prefixes *)
Lemma sorted_prefix {A} (D : A -> Z) m (l : list A) : StronglySorted (fun a b => D a <= D b) l ->
  let n := len (filter (fun x => D x <=? m) l) in
  firstn n l = filter (fun x => D x <=? m) l /\ forall j x, nth_error l j = Some x -> (D x <=? m) = (j <? n)%nat.
Proof.
  induction 1 as [|a l S IH F]; cbn [filter]; [split; [reflexivity|intros [|j] x; discriminate]|].
  destruct IH as [I1 I2]. destruct (Z.leb_spec (D a) m) as [L|L]; cbn [List.length].
  - split; [cbn; rewrite I1; reflexivity|]. intros [|j] x E; cbn in E; [inversion E; subst x; apply Z.leb_le; exact L|].
    rewrite (I2 j x E). reflexivity.
  - assert (Z0 : filter (fun x => D x <=? m) l = []).
    { clear I1 I2 S. induction F as [|x l HF F IH]; [reflexivity|]. cbn [filter]. destruct (Z.leb_spec (D x) m); [lia|]. exact IH. }
    rewrite Z0 in *. split; [reflexivity|]. intros [|j] x E; cbn in E; [inversion E; subst x; apply Z.leb_gt; exact L|].
    rewrite (I2 j x E). reflexivity.
Qed.

Lemma sorted_map {A B} (f : A -> B) (R : B -> B -> Prop) l : StronglySorted R (map f l) <-> StronglySorted (fun a b => R (f a) (f b)) l.
Proof.
  induction l as [|a l IH]; cbn; split; intros H; try constructor; inversion H; subst; try (apply IH; assumption).
  - apply Forall_forall. intros x I. rewrite Forall_forall in H3. apply H3. apply in_map. exact I.
  - apply Forall_forall. intros x I. apply in_map_iff in I as (y & <- & I). rewrite Forall_forall in H3. auto.
Qed.

(** ** Products of lists *)
Lemma list_prod_app_l {A B} (a a' : list A) (b : list B) : list_prod (a ++ a') b = list_prod a b ++ list_prod a' b.
Proof. induction a as [|x a IH]; cbn; [reflexivity|]. rewrite IH, app_assoc. reflexivity. Qed.

Lemma list_prod_nil_r {A B} (a : list A) : list_prod a (@nil B) = [].
Proof. induction a; cbn; auto. Qed.

Lemma list_prod_app_r {A B} (a : list A) (b b' : list B) : Permutation (list_prod a (b ++ b')) (list_prod a b ++ list_prod a b').
Proof.
  induction a as [|x a IH]; cbn; [constructor|]. rewrite map_app, IH, <- !app_assoc. apply Permutation_app_head. rewrite !app_assoc. apply Permutation_app_tail, Permutation_app_comm.
Qed.

Lemma list_prod_perm {A B} (a a' : list A) (b b' : list B) : Permutation a a' -> Permutation b b' -> Permutation (list_prod a b) (list_prod a' b').
Proof.
  intros PA PB. transitivity (list_prod a b').
  - clear PA. induction a as [|y a IH]; cbn; [constructor|]. apply Permutation_app; [apply Permutation_map; exact PB|exact IH].
  - clear PB. induction PA; cbn.
    + constructor.
    + apply Permutation_app_head. exact IHPA.
    + rewrite !app_assoc. apply Permutation_app_tail, Permutation_app_comm.
    + etransitivity; eauto.
Qed.

Lemma list_prod_concat_l {A B} (ls : list (list A)) (b : list B) : list_prod (List.concat ls) b = List.concat (map (fun l => list_prod l b) ls).
Proof. induction ls as [|l ls IH]; cbn; [reflexivity|]. rewrite list_prod_app_l, IH. reflexivity. Qed.

Lemma list_prod_concat_r {A B} (a : list A) (ls : list (list B)) : Permutation (list_prod a (List.concat ls)) (List.concat (map (list_prod a) ls)).
Proof. induction ls as [|l ls IH]; cbn; [rewrite list_prod_nil_r; constructor|]. rewrite list_prod_app_r. apply Permutation_app_head. exact IH. Qed.

Lemma concat_perm {A B} (f g : A -> list B) l : (forall x, In x l -> Permutation (f x) (g x)) -> Permutation (List.concat (map f l)) (List.concat (map g l)).
Proof. induction l as [|x l IH]; intros H; cbn; [constructor|]. apply Permutation_app; [apply H; left; reflexivity|apply IH; intros; apply H; right; assumption]. Qed.

Lemma concat_perm_l {A B} (f : A -> list B) l l' : Permutation l l' -> Permutation (List.concat (map f l)) (List.concat (map f l')).
Proof.
  induction 1; cbn; auto; [apply Permutation_app_head; auto| |etransitivity; eauto]. rewrite !app_assoc. apply Permutation_app_tail, Permutation_app_comm.
Qed.

Lemma concat_concat_map {A B D} (f : A -> list B) (g : B -> list D) l : List.concat (map g (List.concat (map f l))) = List.concat (map (fun x => List.concat (map g (f x))) l).
Proof. induction l as [|x l IH]; cbn; [reflexivity|]. rewrite map_app, concat_app, IH. reflexivity. Qed.

Lemma concat_app_map {A B} (f g : A -> list B) l : Permutation (List.concat (map (fun x => f x ++ g x) l)) (List.concat (map f l) ++ List.concat (map g l)).
Proof.
  induction l as [|x l IH]; cbn; [constructor|]. rewrite IH, <- !app_assoc. apply Permutation_app_head. rewrite !app_assoc. apply Permutation_app_tail, Permutation_app_comm.
Qed.

(** Exchanging two nested loops. *)
Lemma concat_swap {A B D} (f : A -> B -> list D) la lb :
  Permutation (List.concat (map (fun a => List.concat (map (f a) lb)) la)) (List.concat (map (fun b => List.concat (map (fun a => f a b) la)) lb)).
Proof.
  induction la as [|a la IH]; cbn [map List.concat].
  - induction lb; cbn; auto.
  - rewrite IH. symmetry. apply (concat_app_map (f a) (fun b => List.concat (map (fun a => f a b) la))).
Qed.

(** Distributing over the residues. *)
Lemma distribute {A} (f : A -> nat) n (l : list A) : (forall x, In x l -> (f x < n)%nat) ->
  Permutation (List.concat (map (fun s => filter (fun x => Nat.eqb (f x) s) l) (seq 0 n))) l.
Proof.
  induction l as [|x l IH]; intros H.
  - cbn [filter]. clear H. induction (seq 0 n); cbn; auto.
  - assert (Fx : (f x < n)%nat) by (apply H; left; reflexivity). specialize (IH (fun y I => H y (or_intror I))). cbn [filter].
    transitivity (List.concat (map (fun s => (if Nat.eqb (f x) s then [x] else []) ++ filter (fun y => Nat.eqb (f y) s) l) (seq 0 n))).
    { apply concat_perm. intros s _. destruct (Nat.eqb (f x) s); reflexivity. }
    rewrite concat_app_map. rewrite IH. clear IH H.
    assert (E : List.concat (map (fun s => if Nat.eqb (f x) s then [x] else []) (seq 0 n)) = [x]); [|rewrite E; reflexivity].
    assert (G : forall a m, List.concat (map (fun s => if Nat.eqb (f x) s then [x] else []) (seq a m)) = if (a <=? f x)%nat && (f x <? a + m)%nat then [x] else []).
    { intros a m. revert a. induction m as [|m IH]; intros a; cbn [seq map List.concat].
      - destruct (Nat.leb_spec a (f x)), (Nat.ltb_spec (f x) (a + 0)); try reflexivity; lia.
      - rewrite IH. destruct (Nat.eqb_spec (f x) a), (Nat.leb_spec (S a) (f x)), (Nat.leb_spec a (f x)), (Nat.ltb_spec (f x) (S a + m)), (Nat.ltb_spec (f x) (a + S m)); try reflexivity; lia. }
    rewrite G. destruct (Nat.leb_spec 0 (f x)), (Nat.ltb_spec (f x) (0 + n)); try reflexivity; lia.
Qed.

Lemma filter_concat {A} (f : A -> bool) ls : filter f (List.concat ls) = List.concat (map (filter f) ls).
Proof. induction ls as [|l ls IH]; cbn; [reflexivity|]. rewrite filter_app, IH. reflexivity. Qed.

Lemma rmap_all {A B} (f : A -> res B) (g : A -> B) l : (forall a, In a l -> f a = Ok (g a)) -> rmap f l = Ok (map g l).
Proof. induction l as [|a l IH]; intros H; cbn; [reflexivity|]. rewrite (H a) by (left; reflexivity). cbn [bind]. rewrite IH by (intros; apply H; right; assumption). reflexivity. Qed.
